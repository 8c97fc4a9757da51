From Coq Require Import List Bool Arith Lia.
From Verif.Preempt Require Import Model Spec.
Import ListNotations.
Section L.
Variable limit : nat.
Hypothesis Hlimit : 1 < limit.
Definition at0 (o : option nat) : option nat := match o with Some 0 => Some 0 | _ => None end.
(** the disable_count needed to execute the rest *)
Fixpoint need (c : list instr) : option nat :=
  match c with
  | [] => Some 1
  | i :: c =>
      match i with
      | Work | Poll | Ret => need c
      | DisA false => need c
      | DisA true | EnaB _ _ | EnaC _ | EnaD _ | HA | HB => at0 (need c)
      | DisB => match need c with Some (S n) => if S n <? limit then Some n else None | _ => None end
      | EnaA _ => match need c with Some n => Some (S n) | None => None end
      | Switch _ => match need c with Some 1 => Some 1 | _ => None end
      end
  end.
Fixpoint clean (c : list instr) : bool :=
  match c with
  | [] => false
  | [Switch false] => true
  | Switch true :: EnaA _ :: c => clean c
  | Work :: c | Poll :: c | EnaA _ :: c | Switch false :: c => clean c
  | DisA _ :: DisB :: c => clean c
  | _ => false
  end.
Definition rest (c : list instr) : list instr := match c with DisB :: c | EnaB _ _ :: c | EnaC _ :: c | EnaD _ :: c | Ret :: c | HB :: c => c | HA :: HB :: c => c | c => c end.
Definition fits (k : nat) (x : kt) (c : list instr) (n : nat) : Prop :=
  need c = Some n /\ count x = n /\ clean (rest c) = true /\
  match c with
  | [] => False
  | i :: _ => enabled x = match i with DisB | EnaB _ _ => false | _ => n =? 0 end
      /\ inprog x = match i with HA | HB => true | _ => false end
      /\ masked x = match i with HA => true | _ => false end
      /\ match i with EnaB _ j | EnaC j | EnaD j => j = k | _ => True end
  end.
Record inv (s : st) : Prop := Inv {
  i_kernel : forall k, cur (kts s k) = None -> count (kts s k) = 1 /\ enabled (kts s k) = false /\ inprog (kts s k) = false /\ masked (kts s k) = false;
  i_run : forall k t, cur (kts s k) = Some t -> running s t = true /\ fits k (kts s k) (cont s t) (dep s t);
  i_one : forall k j t, cur (kts s k) = Some t -> cur (kts s j) = Some t -> k = j;
  i_idle : forall t, running s t = false -> dep s t = 1 /\ (cont s t = [] \/ need (cont s t) = Some 1 /\ clean (cont s t) = true) }.
Lemma clean_rest c : clean c = true -> rest c = c.
Proof. destruct c as [|[] c]; cbn; congruence. Qed.
Lemma clean_tail i c : clean (i :: c) = true -> match i with DisA _ => exists c', c = DisB :: c' /\ clean c' = true | Switch true => clean c = true | Switch false => c = [] \/ clean c = true | Work | Poll | EnaA _ => clean c = true | _ => False end.
Proof.
  destruct i as [| | | | | | | | |[]| |]; cbn; auto; try discriminate.
  - destruct c as [|[] c]; try discriminate. eauto.
  - destruct c as [|[] c]; try discriminate. auto.
  - destruct c as [|j c]; auto.
Qed.
Lemma upd_same {A} (f : nat -> A) k v : upd f k v k = v.
Proof. unfold upd. now rewrite Nat.eqb_refl. Qed.
Lemma upd_other {A} (f : nat -> A) k v j : j <> k -> upd f k v j = f j.
Proof. unfold upd. destruct (Nat.eqb_spec j k); congruence. Qed.
(** a step of the thread t running on k that keeps it there *)
Lemma inv_keep s k t x' c' d' : inv s -> cur (kts s k) = Some t -> cur x' = Some t -> fits k x' c' d' -> inv (S_ (upd (kts s) k x') (upd (cont s) t c') (running s) (upd (dep s) t d')).
Proof.
  intros H E Ex F. constructor; cbn [kts cont running dep].
  - intros j. destruct (Nat.eq_dec j k) as [->|N]; [rewrite upd_same; congruence|rewrite upd_other by exact N; apply H].
  - intros j u. destruct (Nat.eq_dec j k) as [->|N].
    + rewrite upd_same. intros E2. assert (u = t) by congruence. subst u. rewrite !upd_same. split; [now apply (i_run _ H k)|exact F].
    + rewrite upd_other by exact N. intros E2. assert (u <> t) by (intros ->; apply N; eapply (i_one _ H); eauto). rewrite !upd_other by assumption. now apply (i_run _ H).
  - intros j1 j2 u E1 E2. assert (forall j, cur (upd (kts s) k x' j) = Some u -> cur (kts s j) = Some u) as Q by (intros j; destruct (Nat.eq_dec j k) as [->|N]; [rewrite upd_same; congruence|now rewrite upd_other by exact N]). apply (i_one _ H j1 j2 u); auto.
  - intros u R. assert (u <> t) by (intros ->; destruct (i_run _ H k t E); congruence). rewrite !upd_other by assumption. now apply (i_idle _ H).
Qed.
Lemma upd_id {A} (f : nat -> A) k : forall j, upd f k (f k) j = f j.
Proof. intros j. unfold upd. destruct (Nat.eqb_spec j k) as [->|]; reflexivity. Qed.
Lemma inv_ext s s' : inv s -> (forall k, kts s' k = kts s k) -> (forall t, cont s' t = cont s t) -> (forall t, running s' t = running s t) -> (forall t, dep s' t = dep s t) -> inv s'.
Proof.
  intros H A B C D. constructor.
  - intros k. rewrite A. apply H.
  - intros k t. rewrite A, B, C, D. apply H.
  - intros k j t. rewrite !A. apply H.
  - intros t. rewrite B, C, D. apply H.
Qed.
Lemma inv_go s k t x' c' : inv s -> cur (kts s k) = Some t -> cur x' = Some t -> fits k x' c' (dep s t) -> inv (S_ (upd (kts s) k x') (upd (cont s) t c') (running s) (dep s)).
Proof. intros H E Ex F. apply (inv_ext _ _ (inv_keep s k t x' c' (dep s t) H E Ex F)); cbn; auto. intros u. now rewrite upd_id. Qed.
Lemma at0_some o n : at0 o = Some n -> o = Some 0 /\ n = 0.
Proof. destruct o as [[|]|]; cbn; try discriminate. intros [= <-]. auto. Qed.
(** the state of a kernel thread when the rest is clean *)
Lemma fits_clean k x c n : clean c = true -> need c = Some n -> count x = n -> enabled x = (n =? 0) -> inprog x = false -> masked x = false -> fits k x c n.
Proof.
  intros C Hn Hc He Hi Hm. split; [exact Hn|]. split; [exact Hc|]. split; [now rewrite clean_rest|]. destruct c as [|i c]; [discriminate|]. destruct i; cbn in C; try discriminate; auto.
Qed.
Lemma lt1 : (1 <? limit) = true.
Proof. now apply Nat.ltb_lt. Qed.
Lemma need_yield c : need c = Some 0 -> need (force_yield ++ c) = Some 0.
Proof. intros E. unfold force_yield. cbn [app need]. rewrite E, lt1. reflexivity. Qed.
Lemma need_park c : need c = Some 0 -> need (park ++ c) = Some 0.
Proof. intros E. unfold park. cbn [app need]. rewrite E, lt1. reflexivity. Qed.
Lemma run_step s k t i c skip : inv s -> cur (kts s k) = Some t -> cont s t = i :: c -> match exec limit k t (kts s k) i c skip s with Next s' => inv s' | Abort => False | Stuck => True end.
Proof.
  intros H E Ec. destruct (i_run _ H k t E) as [R F]. rewrite Ec in F. destruct F as [Hn [Hc [Cl [He [Hi [Hm Hj]]]]]]. remember (kts s k) as x eqn:Ex. destruct i; cbn [exec].
  - (* Work *) cbn [rest] in Cl. apply clean_tail in Cl. cbn [need] in Hn. apply inv_go; rewrite <- ?Ex; auto. now apply fits_clean.
  - (* DisA *) cbn [rest] in Cl. apply clean_tail in Cl as [c' [-> Cl]]. assert (N0 : checked = true -> dep s t = 0) by (intros ->; cbn [need] in Hn; now apply at0_some in Hn).
    destruct (checked && negb (enabled x)) eqn:B; [apply andb_true_iff in B as [-> B]; rewrite (N0 eq_refl) in He; cbn in He; rewrite He in B; discriminate|].
    apply inv_go; rewrite <- ?Ex; auto. split; [|cbn; auto 8]. destruct checked; [|exact Hn]. change (need (DisA true :: DisB :: c')) with (at0 (need (DisB :: c'))) in Hn. apply at0_some in Hn as [A B']. now rewrite B'.
  - (* DisB *) cbn [rest] in Cl. cbn [need] in Hn. destruct (need c) as [[|n]|] eqn:Nc; try discriminate. destruct (S n <? limit) eqn:Lt; [|discriminate]. injection Hn as Hn. rewrite Hc, <- Hn, Lt. apply inv_keep; rewrite <- ?Ex; auto. cbn. apply fits_clean; cbn; auto.
  - (* EnaA *) cbn [rest] in Cl. apply clean_tail in Cl. cbn [need] in Hn. destruct (need c) as [n|] eqn:Nc; [|discriminate]. injection Hn as Hn. rewrite Hc, <- Hn. cbn [pred]. apply inv_keep; rewrite <- ?Ex; auto. rewrite <- Hn in He. cbn in He. destruct n as [|n].
    + split; [cbn; now rewrite Nc|]. cbn. auto 8.
    + apply fits_clean; cbn; auto.
  - (* EnaB *) cbn [rest] in Cl. cbn [need] in Hn. apply at0_some in Hn as [Nc N0]. rewrite N0 in *. destruct poll.
    + apply inv_go; rewrite <- ?Ex; auto. rewrite N0. split; [cbn; now rewrite Nc|]. cbn. auto 8.
    + apply inv_go; rewrite <- ?Ex; auto. rewrite N0. split; [cbn; now rewrite Nc|]. cbn. auto 8.
  - (* EnaC *) cbn [rest] in Cl. cbn [need] in Hn. apply at0_some in Hn as [Nc N0]. rewrite N0 in *. subst proc. destruct (pend (kts s k)); (apply inv_go; rewrite <- ?Ex; auto; rewrite N0; split; [cbn; now rewrite Nc|]; cbn; auto 8).
  - (* EnaD *) cbn [rest] in Cl. cbn [need] in Hn. apply at0_some in Hn as [Nc N0]. rewrite N0 in *. subst proc. rewrite <- Ex. apply inv_go; rewrite <- ?Ex; auto. rewrite N0. apply fits_clean; auto. now apply need_yield.
  - (* Ret *) cbn [rest] in Cl. cbn [need] in Hn. apply inv_go; rewrite <- ?Ex; auto. now apply fits_clean.
  - (* Poll *) cbn [rest] in Cl. apply clean_tail in Cl. cbn [need] in Hn. apply inv_go; rewrite <- ?Ex; auto. destruct (enabled x) eqn:En; [|apply fits_clean; congruence]. symmetry in He. apply Nat.eqb_eq in He. rewrite He in *. split; [cbn; now rewrite Hn|]. cbn. auto 8.
  - (* Switch *) cbn [rest] in Cl. cbn [need] in Hn. destruct (need c) as [[|[|n]]|] eqn:Nc; try discriminate. injection Hn as Hn. rewrite <- Hn in *. rewrite He. cbn [Nat.eqb]. apply clean_tail in Cl. destruct (may_skip && skip) eqn:B.
    + apply andb_true_iff in B as [-> _]. apply inv_go; rewrite <- ?Ex; auto. rewrite <- Hn. now apply fits_clean.
    + constructor; cbn [kts cont running dep].
      * intros j. destruct (Nat.eq_dec j k) as [->|N]; [rewrite upd_same; cbn; auto|rewrite upd_other by exact N; apply H].
      * intros j u. destruct (Nat.eq_dec j k) as [->|N]; [rewrite upd_same; discriminate|]. rewrite upd_other by exact N. intros E2. assert (u <> t) by (intros ->; apply N; apply (i_one _ H j k t); congruence). rewrite !upd_other by assumption. now apply (i_run _ H).
      * intros j1 j2 u E1 E2. assert (Q : forall j, cur (upd (kts s) k (K false (count x) (inprog x) (pend x) (masked x) None) j) = Some u -> cur (kts s j) = Some u) by (intros j; destruct (Nat.eq_dec j k) as [->|N]; [rewrite upd_same; discriminate|now rewrite upd_other by exact N]). apply (i_one _ H j1 j2 u); eapply Q; eauto.
      * intros u. destruct (Nat.eq_dec u t) as [->|N]; [intros _; rewrite upd_same; split; [auto|]; destruct may_skip; [auto|destruct Cl; auto]|rewrite !upd_other by exact N; apply (i_idle _ H)].
  - (* HA *) cbn [need] in Hn. apply at0_some in Hn as [Nc N0]. rewrite N0 in *. cbn [rest] in Cl. destruct c as [|j c]; [discriminate|]. destruct j; try (apply clean_tail in Cl; contradiction). apply inv_go; rewrite <- ?Ex; auto. rewrite N0. split; [exact Nc|]. cbn. auto 8.
  - (* HB *) cbn [rest] in Cl. cbn [need] in Hn. apply at0_some in Hn as [Nc N0]. rewrite N0 in *. apply inv_go; rewrite <- ?Ex; auto. rewrite N0. apply fits_clean; auto.
Qed.
Lemma step_inv l s : inv s -> match step limit l s with Next s' => inv s' | Abort => False | Stuck => True end.
Proof.
  intros H. destruct l as [k skip|k|k t]; cbn [step].
  - destruct (cur (kts s k)) as [t|] eqn:E; [|exact I]. destruct (cont s t) as [|i c] eqn:Ec; [exact I|]. now apply run_step.
  - destruct (masked (kts s k)) eqn:M; [exact I|]. destruct (cur (kts s k)) as [t|] eqn:E.
    + destruct (i_run _ H k t E) as [R F]. destruct (cont s t) as [|i c] eqn:Ec; [exact I|]. destruct (ready (kts s k) i) eqn:Rd.
      * unfold ready in Rd. apply andb_true_iff in Rd as [Rd Ip]. apply andb_true_iff in Rd as [Np En]. destruct F as [Hn [Hc [Cl [He [Hi [Hm Hj]]]]]]. apply inv_go; auto.
        assert (N0 : dep s t = 0) by (rewrite En in He; destruct i; try discriminate; symmetry in He; now apply Nat.eqb_eq in He). rewrite N0 in *.
        assert (Cl' : clean (i :: c) = true) by (destruct i; try discriminate; cbn [rest] in Cl; auto; rewrite Hi in Ip; discriminate).
        unfold handler, force_yield. split; [pose proof (need_yield _ Hn) as Y; unfold force_yield in Y; cbn [app need] in *; rewrite Y; reflexivity|]. split; [exact Hc|]. split; [exact Cl'|]. cbn. auto 8.
      * apply inv_ext with (s := S_ (upd (kts s) k (K (enabled (kts s k)) (count (kts s k)) (inprog (kts s k)) true false (Some t))) (upd (cont s) t (i :: c)) (running s) (dep s)); cbn; auto.
        -- apply inv_go; auto. destruct F as [Hn [Hc [Cl [He [Hi [Hm Hj]]]]]]. split; [exact Hn|]. split; [exact Hc|]. split; [exact Cl|]. cbn. rewrite M in Hm. auto.
        -- intros u. unfold upd. destruct (Nat.eqb_spec u t) as [->|]; [exact Ec|reflexivity].
    + destruct (i_kernel _ H k E) as [A [B [C D]]]. constructor; cbn [kts cont running dep].
      * intros j. destruct (Nat.eq_dec j k) as [->|N]; [rewrite upd_same; cbn; auto|rewrite upd_other by exact N; apply H].
      * intros j u. destruct (Nat.eq_dec j k) as [->|N]; [rewrite upd_same; discriminate|rewrite upd_other by exact N; apply H].
      * intros j1 j2 u. assert (Q : forall j, cur (upd (kts s) k (K (enabled (kts s k)) (count (kts s k)) (inprog (kts s k)) true false None) j) = Some u -> cur (kts s j) = Some u) by (intros j; destruct (Nat.eq_dec j k) as [->|N]; [rewrite upd_same; discriminate|now rewrite upd_other by exact N]). intros E1 E2. apply (i_one _ H j1 j2 u); apply Q; auto.
      * apply (i_idle _ H).
  - destruct (cur (kts s k)) eqn:E; [exact I|]. destruct (running s t) eqn:R; [exact I|]. destruct (cont s t) as [|i c] eqn:Ec; [exact I|]. destruct (i_kernel _ H k E) as [A [B [C D]]]. destruct (i_idle _ H t R) as [Dt [X|[Hn Cl]]]; [congruence|].
    assert (Nr : forall j, cur (kts s j) <> Some t) by (intros j Ej; destruct (i_run _ H j t Ej); congruence).
    constructor; cbn [kts cont running dep].
    + intros j. destruct (Nat.eq_dec j k) as [->|N]; [rewrite upd_same; discriminate|rewrite upd_other by exact N; apply H].
    + intros j u. destruct (Nat.eq_dec j k) as [->|N].
      * rewrite upd_same. cbn. intros [= <-]. rewrite upd_same. split; [reflexivity|]. rewrite Dt. apply fits_clean; cbn; auto.
      * rewrite upd_other by exact N. intros Ej. assert (u <> t) by (intros ->; apply (Nr j Ej)). rewrite upd_other by assumption. now apply (i_run _ H).
    + intros j1 j2 u. unfold upd. destruct (Nat.eqb_spec j1 k) as [->|N1], (Nat.eqb_spec j2 k) as [->|N2]; cbn; auto.
      * intros [= <-] F. destruct (Nr _ F).
      * intros F [= <-]. destruct (Nr _ F).
      * apply (i_one _ H).
    + intros u. destruct (Nat.eq_dec u t) as [->|N]; [rewrite upd_same; discriminate|rewrite upd_other by exact N; apply (i_idle _ H)].
Qed.
Lemma proper_need n p q : proper limit n p -> need q = Some 0 -> clean q = true -> need (p ++ q) = Some n /\ clean (p ++ q) = true.
Proof.
  intros P Hq Cq. induction P; cbn [app need clean]; auto; try destruct IHP as [A B].
  - split; [|exact B]. rewrite A. destruct (Nat.ltb_spec (S n) limit); [reflexivity|lia].
  - split; [now rewrite A|exact B].
  - split; [now apply need_yield|exact B].
  - split; [now apply need_park|exact B].
Qed.
Lemma inv_init prog : (forall t, proper limit 0 (prog t)) -> inv (init prog).
Proof.
  intros P. constructor; cbn [init kts cont running dep cur]; try discriminate.
  - cbn. auto.
  - intros t _. split; [reflexivity|]. right. unfold thread. assert (L1 : need [DisA false; DisB; Switch false] = Some 0) by (cbn [need]; now rewrite lt1). destruct (proper_need 0 (prog t) [DisA false; DisB; Switch false] (P t) L1 eq_refl) as [A B]. cbn [need clean]. rewrite A. auto.
Qed.
Lemma run_inv l : forall s, inv s -> match run limit l s with Next s' => inv s' | Abort => False | Stuck => True end.
Proof. induction l as [|a l IH]; intros s H; cbn [run]; [exact H|]. pose proof (step_inv a s H) as G. destruct (step limit a s); [now apply IH|exact G|exact I]. Qed.
End L.
