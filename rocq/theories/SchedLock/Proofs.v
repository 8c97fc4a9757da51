From Coq Require Import List Bool Arith Lia ZifyBool.
From Verif.SchedLock Require Import Model Spec.
Import ListNotations.
Open Scope nat_scope.

Lemma upd_same : forall X (f : nat -> X) i x, upd f i x i = x.
Proof. intros. unfold upd. rewrite Nat.eqb_refl. auto. Qed.
Lemma upd_other : forall X (f : nat -> X) i x j, j <> i -> upd f i x j = f j.
Proof. intros. unfold upd. destruct (Nat.eqb_spec j i); congruence. Qed.
(** the cell of a registered thread *)
Definition cell (p : pc) : option nat :=
  match p with
  | Idle id | RdWait id | RdAcq id | RdSpin id | Reading id | WAcq id | WSpin id | WReady id | WLoad id _ _ | WXchg id _ _ _ | WTest id _ _ _
  | Writing id _ | ULoad id _ _ | UStore id _ _ _ | UWrite id => Some id
  | _ => None
  end.
Definition passed (p : pc) : bool := match p with RdAcq _ | RdSpin _ | Reading _ => true | _ => false end.
Definition isreading (p : pc) : bool := match p with Reading _ => true | _ => false end.
Definition inside (p : pc) : bool :=
  match p with WReady _ | WLoad _ _ _ | WXchg _ _ _ _ | WTest _ _ _ _ | Writing _ _ | ULoad _ _ _ | UStore _ _ _ _ | UWrite _ => true | _ => false end.
(** the cells whose locks a writer holds, and the cells it knows of *)
Definition holds (p : pc) (j : nat) : Prop :=
  match p with
  | WLoad _ i k | WXchg _ i k _ | WTest _ i k _ => j < i /\ j < k
  | Writing _ k => j < k
  | ULoad _ i k | UStore _ i k _ => i <= j < k
  | _ => False
  end.
Definition knows (p : pc) (j : nat) : Prop :=
  match p with WLoad _ _ k | WXchg _ _ k _ | WTest _ _ k _ | Writing _ k | ULoad _ _ k | UStore _ _ k _ => j < k | _ => True end.
(** the cell and thread a writer is about to touch *)
Definition touches (p : pc) : option (nat * nat) := match p with WXchg _ i _ u | WTest _ i _ u | UStore _ i _ u => Some (i, u) | _ => None end.
Definition limit (p : pc) : option nat := match p with WLoad _ _ k | WXchg _ _ k _ | WTest _ _ k _ | Writing _ k | ULoad _ _ k | UStore _ _ k _ => Some k | _ => None end.
Definition slot (p : pc) : option nat := match p with RStore n | RPub n => Some n | _ => None end.
Definition stored (p : pc) : option nat := match p with RPub n => Some n | _ => None end.
Record Inv (s : state) : Prop := {
  v_one : forall t u, inside (at_ s t) = true -> inside (at_ s u) = true -> t = u;
  v_w : forall t, inside (at_ s t) = true -> wlock s = true;
  v_ra : ready s <= alloc s;
  v_slot : forall t n, slot (at_ s t) = Some n -> ready s <= n < alloc s;
  v_slots : forall t u n, slot (at_ s t) = Some n -> slot (at_ s u) = Some n -> t = u;
  v_stored : forall t n, stored (at_ s t) = Some n -> data s n = Some t;
  v_scan : forall t i k, at_ s t = RScan i k -> k <= ready s;
  v_cas : forall t i k, at_ s t = RCas i k -> i < ready s /\ k <= ready s;
  v_cell : forall t id, cell (at_ s t) = Some id -> id < ready s /\ data s id = Some t;
  v_back : forall i t, i < ready s -> data s i = Some t -> cell (at_ s t) = Some i;
  v_read : forall t, isreading (at_ s t) = true -> lk s t = true;
  v_know : forall t w id, passed (at_ s t) = true -> cell (at_ s t) = Some id -> inside (at_ s w) = true -> knows (at_ s w) id;
  v_hold : forall t w id, passed (at_ s t) = true -> cell (at_ s t) = Some id -> inside (at_ s w) = true -> holds (at_ s w) id -> isreading (at_ s t) = false /\ lk s t = true;
  v_touch : forall t w id i u, passed (at_ s t) = true -> cell (at_ s t) = Some id -> touches (at_ s w) = Some (i, u) -> (u = t <-> i = id);
  v_lim : forall t k, limit (at_ s t) = Some k -> k <= ready s }.
Ltac sf := cbn [goto set_cell set_lk set_wlock set_alloc set_ready stop max alloc ready wlock data lk at_ ending_] in *.
(** a step of t that changes only where t is *)
Lemma start_inv : forall m junk, Inv (start m junk).
Proof. intros m junk. constructor; unfold start; sf; cbn [limit inside slot stored cell passed isreading]; intros; try discriminate; try lia. Qed.
Ltac ups := repeat match goal with
  | H : context [upd ?f ?i ?x ?j] |- _ => (destruct (Nat.eq_dec j i) as [?|?]; [subst; rewrite upd_same in *|rewrite (upd_other _ f i x j) in * by assumption])
  | |- context [upd ?f ?i ?x ?j] => (destruct (Nat.eq_dec j i) as [?|?]; [subst; rewrite upd_same in *|rewrite (upd_other _ f i x j) in * by assumption])
  end.
Ltac red1 := cbn [limit inside slot stored cell passed isreading touches knows holds] in *.
Ltac facts I E t :=
  pose proof (v_ra _ I) as FRA; pose proof (v_lim _ I t) as FL; pose proof (v_w _ I t) as FW; pose proof (v_slot _ I t) as FS; pose proof (v_stored _ I t) as FT; pose proof (v_cell _ I t) as FC; pose proof (v_read _ I t) as FR;
  pose proof (v_one _ I t) as FO; pose proof (v_slots _ I t) as FSS; pose proof (v_scan _ I t) as FSC; pose proof (v_cas _ I t) as FCA; pose proof (fun i => v_back _ I i t) as FB;
  pose proof (fun w => v_know _ I w t) as FK; pose proof (fun w => v_hold _ I w t) as FH; pose proof (fun w => v_touch _ I w t) as FTO;
  pose proof (fun w => v_know _ I t w) as FK'; pose proof (fun w => v_hold _ I t w) as FH'; pose proof (fun w => v_touch _ I t w) as FTO';
  rewrite E in FL, FW, FS, FT, FC, FR, FO, FSS, FSC, FCA, FB, FK, FH, FTO, FK', FH', FTO'; red1;
  first [specialize (FL _ eq_refl)|clear FL]; first [specialize (FC _ eq_refl)|clear FC]; first [specialize (FW eq_refl)|clear FW]; first [specialize (FS _ eq_refl)|clear FS]; first [specialize (FT _ eq_refl)|clear FT];
  first [specialize (FR eq_refl)|clear FR]; first [specialize (fun u => FO u eq_refl)|clear FO]; first [specialize (FSC _ _ eq_refl)|clear FSC]; first [specialize (FCA _ _ eq_refl)|clear FCA];
  first [specialize (fun u n => FSS u n eq_refl)|clear FSS].
Lemma stored_slot : forall p n, stored p = Some n -> slot p = Some n.
Proof. intros p n H; destruct p; cbn in *; congruence. Qed.
Lemma touches_inside : forall p x, touches p = Some x -> inside p = true.
Proof. intros p x H; destruct p; cbn in *; congruence. Qed.
Lemma reading_passed : forall p, isreading p = true -> passed p = true /\ exists id, cell p = Some id.
Proof. intros p H; destruct p; cbn in *; try discriminate; eauto. Qed.
Lemma not_read : forall s t, (forall t, isreading (at_ s t) = true -> lk s t = true) -> lk s t = false -> isreading (at_ s t) = false.
Proof. intros s t I L. destruct (isreading (at_ s t)) eqn:X; auto. rewrite I in L by auto. discriminate. Qed.
Ltac forward I4 I6 I7 I9 :=
  repeat match goal with
    | H : slot (at_ ?s ?x) = Some ?n |- _ => lazymatch goal with _ : ready s <= n < alloc s |- _ => fail | _ => pose proof (I4 _ _ H) end
    | H : cell (at_ ?s ?x) = Some ?n |- _ => lazymatch goal with _ : data s n = Some x |- _ => fail | _ => let a := fresh in let b := fresh in destruct (I9 _ _ H) as [a b] end
    | H : stored (at_ ?s ?x) = Some ?n |- _ => lazymatch goal with _ : data s n = Some x |- _ => fail | _ => pose proof (I6 _ _ H) end
    | H : at_ ?s ?x = RScan _ ?k |- _ => lazymatch goal with _ : k <= ready s |- _ => fail | _ => pose proof (I7 _ _ _ H) end
    end.
Lemma step_inv : forall s t a s1, Inv s -> step s t a = Some s1 -> Inv s1.
Proof.
  intros s t a s1 I H. unfold step in H. destruct (ending_ s); try discriminate. destruct (at_ s t) eqn:E; destruct a; try discriminate; injection H as <-; facts I E t.
  all: repeat match goal with |- context [match ?x with _ => _ end] => destruct x eqn:? end.
  all: try exact I.
  all: destruct I as [I1 I2 I3 I4 I5 I6 I7 I8 I9 I10 I11 I12 I13 I14 I15].
  all: constructor; sf; intros; ups; red1; try discriminate; try (eauto 2; fail); try (intuition (eauto 2; try congruence; try lia); fail).
  all: repeat match goal with H : RScan _ _ = RScan _ _ |- _ => injection H as ? ? | H : RCas _ _ = RCas _ _ |- _ => injection H as ? ? | H : Some _ = Some _ |- _ => injection H as ? end; subst.
  all: forward I4 I6 I7 I9.
  all: try (symmetry; auto; fail); try (exfalso; match goal with H : wlock ?x = false |- _ => assert (wlock x = true) by eauto end; congruence); try (intuition (subst; eauto 2; try congruence; try lia); fail).
  - discriminate (FB _ H H0).
  - eapply I5; [exact H|rewrite E; reflexivity].
  - eapply I5; [rewrite E; reflexivity|exact H0].
  - exfalso. apply n1. eapply I5; [apply stored_slot; exact H|rewrite E; reflexivity].
  - apply Nat.eqb_eq in Heqb. assert (n0 <> n); [|lia]. intros ->. apply n1. eapply I5; [exact H|rewrite E; reflexivity].
  - apply I8 in H. apply Nat.eqb_eq in Heqb. lia.
  - apply Nat.eqb_eq in Heqb. destruct (Nat.eq_dec i n) as [->|D]; auto. discriminate (FB i ltac:(lia) H0).
  - apply Nat.eqb_eq in Heqb. destruct (Nat.eq_dec i n) as [->|D]; [congruence|]. apply I10; auto. lia.
  - apply Nat.eqb_eq in Heqb. apply I15 in H. lia.
  - specialize (FB _ H H0). congruence.
  - exfalso. rewrite (I2 w) in Heqb by (eapply touches_inside; eauto). discriminate.
  - destruct (I13 t w id0) as [_ X]; rewrite ?E; auto; congruence.
  - destruct (I13 t w id0) as [_ X]; rewrite ?E; auto; congruence.
  - split; [intros ->|intros ->; congruence]. destruct FC as [FC1 FC2]. assert (i0 < ready s); [|apply I10 in Heqo; congruence].
    apply Nat.ltb_lt in Heqb. lia.
  - apply (FH t0 id0); auto. assert (id0 <> i) by congruence. lia.
  - apply (FH t0 id0); auto. apply Nat.ltb_ge in Heqb. lia.
  - split; auto. apply not_read; auto.
  - assert (id0 <> i). { intros ->. apply n0. symmetry. apply (FTO t0 i i u); auto. } apply (FH t0 id0); auto. lia.
  - split; auto. apply not_read; auto.
  - apply (FH t0 id0); auto. lia.
  - split; [intros ->|intros ->; congruence]. assert (i0 < ready s); [|apply I10 in Heqo; congruence]. apply Nat.ltb_lt in Heqb. lia.
  - apply (FH t0 id0); auto. lia.
  - destruct (reading_passed _ H) as (P & id0 & C). destruct (FTO u id0 i u P C eq_refl) as [X _]. rewrite (X eq_refl) in *. destruct (FH u id0) as [Y _]; auto; [|congruence]. pose proof (FK u id0 P C eq_refl). lia.
  - destruct (FTO u id0 i u H H0 eq_refl) as [X _]. specialize (X eq_refl). lia.
  - apply (FH t0 id0); auto. lia.
  - exfalso. apply n. symmetry. auto.
  - exfalso. apply n. symmetry. auto.
Qed.
