From Coq Require Import List Bool Arith Lia.
From Verif.SelectOr Require Import Model Spec.
Import ListNotations.
Lemma upd_same : forall X (f : nat -> X) i x, upd f i x i = x.
Proof. intros. unfold upd. rewrite Nat.eqb_refl. auto. Qed.
Lemma upd_other : forall X (f : nat -> X) i x j, j <> i -> upd f i x j = f j.
Proof. intros. unfold upd. destruct (Nat.eqb_spec j i); congruence. Qed.
Definition updq {X} (f : bool -> nat -> X) (d : bool) (c : nat) (x : X) := fun d' c' => if Bool.eqb d' d && (c' =? c) then x else f d' c'.
Lemma updq_same : forall X (f : bool -> nat -> X) d c x, updq f d c x d c = x.
Proof. intros. unfold updq. rewrite Nat.eqb_refl, eqb_reflx. auto. Qed.
Lemma updq_other : forall X (f : bool -> nat -> X) d c x d' c', d' <> d \/ c' <> c -> updq f d c x d' c' = f d' c'.
Proof. intros. unfold updq. destruct (Bool.eqb d' d) eqn:E; auto. apply eqb_prop in E. destruct (Nat.eqb_spec c' c); auto. destruct H; congruence. Qed.
Lemma updq_cases : forall X (f : bool -> nat -> X) d c x d' c', (d' = d /\ c' = c /\ updq f d c x d' c' = x) \/ ((d' <> d \/ c' <> c) /\ updq f d c x d' c' = f d' c').
Proof. intros. destruct (bool_dec d' d) as [->|N]; [destruct (Nat.eq_dec c' c) as [->|N]|]; [left|right|right]; rewrite ?updq_same, ?updq_other by auto; auto. Qed.
(** where another thread may win the statement *)
Definition openp (p : pc) : bool := match p with Lock _ | Top _ | Tog2 _ | PendF _ | Avail _ | Else | Park => true | _ => false end.
Definition claims (p : pc) : option nat := match p with Hand k | HandP k => Some k | _ => None end.
Definition holds (p : pc) : option nat := match p with Top k | PendL k | Tog1 k | Tog2 k | PendF k | Avail k | Loop k | Hand k | HandP k | SatP k => Some k | _ => None end.
(** how many clauses are registered *)
Definition bound (n : nat) (p : pc) : option nat :=
  match p with
  | Lock k | Top k | PendL k | Tog1 k | Tog2 k | PendF k | Avail k | Loop k | Hand k | HandP k | SatP k => Some k
  | Else | Park => Some n
  | _ => None end.
Definition mayl (n : nat) (p : pc) (j : nat) : Prop :=
  match p with
  | Out => False
  | Fin _ | FinElse | NoBody => True
  | Unreg m | UnregL m => m <= j
  | _ => match bound n p with Some k => j < k | None => False end end.
Definition chan (s : state) (t k : nat) (d : bool) (c : nat) : Prop := nth_error (ops s t) k = Some (d, c).
Definition claimed (s : state) (t j : nat) : Prop := exists w k d c r, claims (at_ s w) = Some k /\ chan s w k d c /\ q s (negb d) c = (t, j) :: r.
(** what the program counter says of a waituntil's status, meetings and token *)
Definition ownw (p : pc) (x : status) (m : list (nat * nat)) (b : bool) (claim : nat -> Prop) : Prop :=
  match p with
  | Out => b = false
  | Lock _ | Top _ | Tog2 _ | Avail _ | Else | Park =>
      match x with Unsat => m = [] /\ b = false | Won j => (m = [] /\ b = false /\ claim j) \/ (exists u, m = [(j, u)] /\ b = true) | _ => False end
  | PendF _ =>
      match x with Pend => m = [] /\ b = false | Won j => (m = [] /\ b = false /\ claim j) \/ (exists u, m = [(j, u)] /\ b = true) | _ => False end
  | PendL _ | Tog1 _ | HandP _ => x = Pend /\ m = [] /\ b = false
  | SatP k => x = Pend /\ b = false /\ exists u, m = [(k, u)]
  | Loop k | Hand k => x = Won k /\ m = [] /\ b = false
  | Fin k => (x = Won k \/ x = Sat) /\ b = false /\ exists u, m = [(k, u)]
  | FinElse => x = Sat /\ m = [] /\ b = false
  | Unreg _ | UnregL _ => x <> Unsat /\ x <> Pend /\ b = false /\ length m <= 1
  | NoBody => False
  end.
Definition ownp (p : pc) (m : list (nat * nat)) (b : bool) (listed : Prop) : Prop :=
  match p with
  | Out => b = false
  | Lock k | Loop k | Hand k => k = 0 /\ m = [] /\ b = false
  | Park => (m = [] /\ b = false /\ listed) \/ (exists u, m = [(0, u)] /\ b = true)
  | Fin k => k = 0 /\ b = false /\ exists u, m = [(k, u)]
  | _ => False
  end.
Definition listed (s : state) (t j : nat) : Prop := exists d c, chan s t j d c /\ In (t, j) (q s d c).
Definition own (s : state) (t : nat) : Prop :=
  if plain s t then ownp (at_ s t) (met s t) (tok s t) (listed s t 0) else ownw (at_ s t) (st s t) (met s t) (tok s t) (claimed s t).
Record Inv (s : state) : Prop := {
  v_lk : forall c t, lk s c = Some t <-> exists k d, holds (at_ s t) = Some k /\ chan s t k d c;
  v_len : forall t, at_ s t <> Out -> 0 < length (ops s t) /\ (plain s t = true -> length (ops s t) = 1);
  v_bnd : forall t k, bound (length (ops s t)) (at_ s t) = Some k -> k <= length (ops s t) /\ (at_ s t <> Park -> at_ s t <> Else -> k < length (ops s t));
  v_list : forall d c u j, In (u, j) (q s d c) -> chan s u j d c /\ mayl (length (ops s u)) (at_ s u) j /\ (plain s u = true -> at_ s u = Park /\ tok s u = false);
  v_nd : forall d c, NoDup (q s d c);
  v_one : forall c, q s true c = [] \/ q s false c = [];
  v_all : forall t k j, plain s t = false -> st s t = Unsat \/ st s t = Pend -> bound (length (ops s t)) (at_ s t) = Some k -> j < k -> listed s t j;
  v_own : forall t, own s t;
  v_hand : forall w k d c, claims (at_ s w) = Some k -> chan s w k d c ->
    exists u j r, q s (negb d) c = (u, j) :: r /\ (plain s u = true \/ (plain s u = false /\ st s u = Won j /\ met s u = [] /\ tok s u = false /\ openp (at_ s u) = true)) }.
Ltac sf := cbn [ops plain els st at_ tok lk q met goto set_st set_tok set_lk set_q meet begin] in *.
Ltac at_t t u := destruct (Nat.eq_dec u t) as [->|?]; [rewrite ?upd_same in *|rewrite ?upd_other in * by auto].
Lemma start_inv : Inv start.
Proof.
  constructor; unfold start; sf; try (intros; congruence); try (intros; cbn in *; tauto || congruence); auto.
  - intros c t. split; [discriminate|]. intros (k & d & X & _). discriminate.
  - intros. constructor.
Qed.
Lemma ownw_mono : forall p x m b (P Q : nat -> Prop), (forall j, P j -> Q j) -> ownw p x m b P -> ownw p x m b Q.
Proof.
  intros p x m b P Q H. destruct p; cbn [ownw]; auto; destruct x; auto; intros [(A & B & C)|A]; auto.
Qed.
Lemma ownp_mono : forall p m b (P Q : Prop), (P -> Q) -> ownp p m b P -> ownp p m b Q.
Proof. intros p m b P Q H. destruct p; cbn [ownp]; auto. intros [(A & B & C)|A]; auto. Qed.
Lemma negb_neq : forall d, negb d <> d.
Proof. destruct d; discriminate. Qed.
(** A thread changes its own program counter, status and token, perhaps takes or releases the lock *)
Definition lists (s : state) (t : nat) (p : pc) : Prop := forall j d c, In (t, j) (q s d c) -> mayl (length (ops s t)) p j /\ (plain s t = true -> p = Park /\ tok s t = false).
Lemma move_inv : forall s t p x b l, Inv s ->
  (forall c u, l c = Some u <-> exists k d, holds (upd (at_ s) t p u) = Some k /\ chan s u k d c) ->
  (p <> Out -> at_ s t <> Out) ->
  (forall k, bound (length (ops s t)) p = Some k -> k <= length (ops s t) /\ (p <> Park -> p <> Else -> k < length (ops s t))) ->
  lists s t p -> (plain s t = true -> at_ s t <> Park \/ p <> Park) -> (b = tok s t \/ (b = false /\ (plain s t = true -> p <> Park))) ->
  (forall k j, plain s t = false -> x = Unsat \/ x = Pend -> bound (length (ops s t)) p = Some k -> j < k -> listed s t j) ->
  (if plain s t then ownp p (met s t) b (listed s t 0) else ownw p x (met s t) b (claimed s t)) ->
  claims (at_ s t) = None ->
  (forall k d c, claims p = Some k -> chan s t k d c -> exists u j r, q s (negb d) c = (u, j) :: r /\ u <> t /\ (plain s u = true \/ (plain s u = false /\ st s u = Won j /\ met s u = [] /\ tok s u = false /\ openp (at_ s u) = true))) ->
  (forall j, plain s t = false -> st s t = Won j -> openp (at_ s t) = true -> met s t = [] -> tok s t = false -> x = Won j /\ openp p = true /\ b = false) ->
  Inv (S (ops s) (plain s) (els s) (upd (st s) t x) (upd (at_ s) t p) (upd (tok s) t b) l (q s) (met s)).
Proof.
  intros s t p x b l [LK LEN BND LI ND ONE ALL OWN HAND] HL HO HB HM HP HT HA HOWN HC HCL HW.
  set (s1 := S (ops s) (plain s) (els s) (upd (st s) t x) (upd (at_ s) t p) (upd (tok s) t b) l (q s) (met s)).
  assert (CL : forall u j, claimed s u j -> claimed s1 u j).
  { intros u j (w & k & d & c & r & A & B & C). exists w, k, d, c, r. unfold chan, s1 in *; sf. at_t t w; [congruence|auto]. }
  constructor; unfold s1; sf; auto.
  - intros u X. at_t t u; auto.
  - intros u k X. at_t t u; auto.
  - intros d c u j X. destruct (LI d c u j X) as (A & B & C). split; [exact A|]. at_t t u; [|auto]. destruct (HM j d c X) as [M1 M2]. split; auto. intros PL. destruct (M2 PL) as [P1 P2]. split; auto. destruct HT as [->|[-> _]]; auto.
  - intros u k j PL X Y L. fold s1. change (listed s u j). at_t t u; [eapply HA; eauto|eapply ALL; eauto].
  - intros u. unfold own, s1; sf. fold s1. change (listed s1 u 0) with (listed s u 0). at_t t u.
    + destruct (plain s t); auto. eapply ownw_mono; [|exact HOWN]. apply CL.
    + pose proof (OWN u) as O. unfold own in O. destruct (plain s u); auto. eapply ownw_mono; [|exact O]. apply CL.
  - intros w k d c X Y. unfold chan in *; sf. at_t t w.
    + destruct (HCL k d c X Y) as (u & j & r & A & B & C). exists u, j, r. split; auto. rewrite !upd_other by auto. auto.
    + destruct (HAND w k d c X Y) as (u & j & r & A & C). exists u, j, r. split; auto. destruct C as [C|(C1 & C2 & C3 & C4 & C5)]; auto. at_t t u; [|tauto].
      right. destruct (HW j C1 C2 C5 C3 C4) as (W1 & W2 & W3). tauto.
Qed.
(** lock bookkeeping *)
Lemma lk_same : forall s t p, Inv s -> holds p = holds (at_ s t) -> forall c u, lk s c = Some u <-> exists k d, holds (upd (at_ s) t p u) = Some k /\ chan s u k d c.
Proof. intros s t p I H c u. rewrite (v_lk _ I). at_t t u; [rewrite H|]; tauto. Qed.
Lemma lk_take : forall s t p k d c, Inv s -> lk s c = None -> holds (at_ s t) = None -> holds p = Some k -> chan s t k d c ->
  forall c' u, upd (lk s) c (Some t) c' = Some u <-> exists k d, holds (upd (at_ s) t p u) = Some k /\ chan s u k d c'.
Proof.
  intros s t p k d c I N H P C c' u. destruct (Nat.eq_dec c' c) as [->|D]; [rewrite upd_same|rewrite upd_other by auto]; split.
  - intros E. injection E as <-. exists k, d. rewrite upd_same. auto.
  - intros (k' & d' & A & B). at_t t u; auto. exfalso. assert (lk s c = Some u) by (apply (v_lk _ I); eauto). congruence.
  - intros E. apply (v_lk _ I) in E. destruct E as (k' & d' & A & B). exists k', d'. at_t t u; [congruence|auto].
  - intros (k' & d' & A & B). apply (v_lk _ I). exists k', d'. at_t t u; auto. unfold chan in *. rewrite P in A. injection A as <-. congruence.
Qed.
Lemma lk_drop : forall s t p k d c, Inv s -> holds (at_ s t) = Some k -> chan s t k d c -> holds p = None ->
  forall c' u, upd (lk s) c None c' = Some u <-> exists k d, holds (upd (at_ s) t p u) = Some k /\ chan s u k d c'.
Proof.
  intros s t p k d c I H C P c' u. assert (T : lk s c = Some t) by (apply (v_lk _ I); eauto). destruct (Nat.eq_dec c' c) as [->|D]; [rewrite upd_same|rewrite upd_other by auto]; split.
  - discriminate.
  - intros (k' & d' & A & B). exfalso. at_t t u; [congruence|]. assert (lk s c = Some u) by (apply (v_lk _ I); eauto). congruence.
  - intros E. apply (v_lk _ I) in E. destruct E as (k' & d' & A & B). exists k', d'. at_t t u; auto. unfold chan in *. congruence.
  - intros (k' & d' & A & B). apply (v_lk _ I). exists k', d'. at_t t u; auto. congruence.
Qed.
Lemma st_id : forall s t u, st s u = upd (st s) t (st s t) u.
Proof. intros. at_t t u; auto. Qed.
Lemma eq_inv : forall s s1, Inv s -> ops s1 = ops s -> plain s1 = plain s -> (forall t, st s1 t = st s t) -> (forall t, at_ s1 t = at_ s t) -> (forall t, tok s1 t = tok s t) -> (forall c, lk s1 c = lk s c) -> (forall d c, q s1 d c = q s d c) -> (forall t, met s1 t = met s t) -> Inv s1.
Proof.
  intros s s1 [LK LEN BND LI ND ONE ALL OWN HAND] E1 E2 E3 E4 E5 E6 E7 E8.
  assert (EC : forall t k d c, chan s1 t k d c <-> chan s t k d c) by (intros; unfold chan; rewrite E1; tauto).
  assert (EL : forall t j, listed s1 t j <-> listed s t j). { intros. unfold listed. split; intros (d & c & A & B); exists d, c; rewrite ?EC, ?E7 in *; auto. }
  assert (ED : forall t j, claimed s t j -> claimed s1 t j). { intros t j (w & k & d & c & r & A & B & C). exists w, k, d, c, r. rewrite E4, EC, E7. auto. }
  constructor.
  - intros c t. rewrite E6, LK, E4. split; intros (k & d & A & B); exists k, d; rewrite EC in *; auto.
  - intros t. rewrite E4, E1, E2. auto. - intros t k. rewrite E4, E1. auto.
  - intros d c u j. rewrite E7, EC, E4, E1, E2, E5. auto. - intros. rewrite E7. auto. - intros. rewrite !E7. auto.
  - intros t k j. rewrite E2, E3, E4, E1, EL. apply ALL.
  - intros t. pose proof (OWN t) as O. unfold own in *. rewrite E2, E4, E3, E5, E8. destruct (plain s t); [eapply ownp_mono; [|exact O]; apply EL|eapply ownw_mono; [|exact O]; apply ED].
  - intros w k d c. rewrite E4, EC, E7. intros A B. destruct (HAND w k d c A B) as (u & j & r & C & D). exists u, j, r. rewrite E2, E3, E8, E5, E4. auto.
Qed.
(** the usual moves: t keeps its token *)
Lemma tok_id : forall s t u, tok s u = upd (tok s) t (tok s t) u.
Proof. intros. at_t t u; auto. Qed.
Lemma lock_one : forall s t1 t2 k1 k2 d1 d2 c, Inv s -> holds (at_ s t1) = Some k1 -> chan s t1 k1 d1 c -> holds (at_ s t2) = Some k2 -> chan s t2 k2 d2 c -> t1 = t2.
Proof. intros s t1 t2 k1 k2 d1 d2 c I A B C D. assert (lk s c = Some t1) by (apply (v_lk _ I); eauto). assert (lk s c = Some t2) by (apply (v_lk _ I); eauto). congruence. Qed.
Lemma claims_holds : forall p k, claims p = Some k -> holds p = Some k.
Proof. intros p k. destruct p; discriminate || auto. Qed.
Lemma plain_zero : forall s u j d c, Inv s -> plain s u = true -> In (u, j) (q s d c) -> j = 0.
Proof.
  intros s u j d c I P X. destruct (v_list _ I _ _ _ _ X) as (A & B & C). destruct (C P) as [C1 C2]. destruct (v_len _ I u) as [_ L]; [congruence|]. specialize (L P).
  unfold chan in A. assert (j < length (ops s u)) by (apply nth_error_Some; congruence). lia.
Qed.
Lemma same_chan : forall s u j d c d' c', Inv s -> In (u, j) (q s d c) -> In (u, j) (q s d' c') -> d' = d /\ c' = c.
Proof. intros s u j d c d' c' I A B. apply (v_list _ I) in A. apply (v_list _ I) in B. destruct A as [A _], B as [B _]. unfold chan in *. rewrite A in B. injection B; auto. Qed.
(** winning another thread's statement *)
Lemma win_inv : forall s t u j k p d c r, Inv s -> holds (at_ s t) = Some k -> holds p = Some k -> claims (at_ s t) = None -> claims p = Some k -> bound (length (ops s t)) p = bound (length (ops s t)) (at_ s t) -> p <> Out -> at_ s t <> Park -> at_ s t <> Else ->
  chan s t k d c -> q s (negb d) c = (u, j) :: r -> plain s u = false -> st s u = Unsat -> u <> t ->
  (forall i, mayl (length (ops s t)) (at_ s t) i -> mayl (length (ops s t)) p i) ->
  (if plain s t then ownp p (met s t) (tok s t) (listed s t 0) else ownw p (st s t) (met s t) (tok s t) (claimed s t)) -> (plain s t = true -> at_ s t <> Park) -> openp (at_ s t) = false ->
  Inv (goto (set_st s u (Won j)) t p).
Proof.
  intros s t u j k p d c r I H1 H2 H3 H4 H5 H6 H7 H8 CH Q PU SU NE ML OW NP OF. pose proof I as [LK LEN BND LI ND ONE ALL OWN HAND].
  pose proof (OWN u) as OU. unfold own in OU. rewrite PU, SU in OU.
  assert (OP : openp (at_ s u) = true /\ met s u = [] /\ tok s u = false).
  { assert (X : In (u, j) (q s (negb d) c)) by (rewrite Q; left; auto). apply LI in X. destruct X as (_ & X & _). destruct (at_ s u); cbn [ownw mayl] in *; try tauto; try (destruct OU; congruence). destruct OU as [[X1|X1] _]; discriminate. }
  destruct OP as (O1 & O2 & O3). set (s1 := goto (set_st s u (Won j)) t p).
  assert (CL : forall v i, claimed s v i -> claimed s1 v i).
  { intros v i (w & k' & d' & c' & r' & A & B & C). exists w, k', d', c', r'. unfold chan, s1 in *; sf. at_t t w; [congruence|auto]. }
  assert (CU : claimed s1 u j). { exists t, k, d, c, r. unfold s1, chan in *; sf. rewrite upd_same. auto. }
  constructor; unfold s1; sf; auto.
  - apply (lk_same s t p I). congruence.
  - intros v X. at_t t v; [|auto]. apply LEN. intros E. rewrite E in H1. discriminate.
  - intros v i X. at_t t v; auto. rewrite H5 in X. destruct (BND _ _ X) as [B1 B2]. auto.
  - intros d' c' v i X. destruct (LI _ _ _ _ X) as (A & B & C). split; auto. at_t t v; auto. split; auto. intros PT. destruct (C PT) as [C1 _]. congruence.
  - intros v i m PL X Y L. change (listed s v m). destruct (Nat.eq_dec v u) as [->|N]; [rewrite upd_same in X; destruct X; discriminate|]. rewrite upd_other in X by auto. at_t t v; [|eapply ALL; eauto]. rewrite H5 in Y. eapply ALL; eauto.
  - intros v. unfold own, s1; sf. fold s1. change (listed s1 v 0) with (listed s v 0). destruct (Nat.eq_dec v t) as [->|N1].
    + rewrite upd_same, upd_other by auto. destruct (plain s t); auto. eapply ownw_mono; [|exact OW]. apply CL.
    + rewrite (upd_other _ (at_ s)) by auto. destruct (Nat.eq_dec v u) as [->|N2].
      * rewrite PU, upd_same, O2, O3. destruct (at_ s u); try discriminate; cbn [ownw]; left; auto.
      * rewrite upd_other by auto. pose proof (OWN v) as O. unfold own in O. destruct (plain s v); auto. eapply ownw_mono; [|exact O]. apply CL.
  - intros w k' d' c' X Y. unfold chan in *; sf. at_t t w.
    + rewrite H4 in X. injection X as <-. rewrite CH in Y. injection Y as <- <-. exists u, j, r. split; auto. right. rewrite upd_same, upd_other by auto. auto.
    + destruct (HAND w k' d' c' X Y) as (u' & j' & r' & A & C). exists u', j', r'. split; auto. destruct C as [C|(C1 & C2 & C3 & C4 & C5)]; auto. right.
      rewrite (upd_other _ (st s)) by congruence. destruct (Nat.eq_dec u' t) as [->|N2]; [|rewrite upd_other by auto; tauto]. exfalso. congruence.
Qed.
(** removing from a queue a node of a decided statement *)
Lemma discard_inv : forall s t u j k d c r, Inv s -> holds (at_ s t) = Some k -> claims (at_ s t) = None -> chan s t k d c -> q s (negb d) c = (u, j) :: r -> plain s u = false -> st s u <> Unsat -> st s u <> Pend ->
  Inv (set_q s (negb d) c r).
Proof.
  intros s t u j k d c r I H1 H3 CH Q PU SU SP. pose proof I as [LK LEN BND LI ND ONE ALL OWN HAND]. unfold set_q. fold (updq (q s) (negb d) c r).
  set (s1 := S (ops s) (plain s) (els s) (st s) (at_ s) (tok s) (lk s) (updq (q s) (negb d) c r) (met s)).
  assert (IN : forall v i d' c', In (v, i) (updq (q s) (negb d) c r d' c') -> In (v, i) (q s d' c')).
  { intros v i d' c' X. destruct (bool_dec d' (negb d)) as [->|N]; [destruct (Nat.eq_dec c' c) as [->|N]|]; [rewrite updq_same in X; rewrite Q; right; auto|rewrite updq_other in X by auto; auto|rewrite updq_other in X by auto; auto]. }
  assert (NI : forall v i d' c', In (v, i) (q s d' c') -> (v, i) <> (u, j) -> In (v, i) (updq (q s) (negb d) c r d' c')).
  { intros v i d' c' X N. destruct (bool_dec d' (negb d)) as [->|N1]; [destruct (Nat.eq_dec c' c) as [->|N1]|]; [rewrite updq_same; rewrite Q in X; destruct X; [congruence|auto]|rewrite updq_other by auto; auto|rewrite updq_other by auto; auto]. }
  assert (OT : forall w k' d' c', claims (at_ s w) = Some k' -> chan s w k' d' c' -> updq (q s) (negb d) c r (negb d') c' = q s (negb d') c').
  { intros w k' d' c' X Y. destruct (Nat.eq_dec c' c) as [->|N]; [|apply updq_other; auto]. exfalso. assert (w = t) by (eapply lock_one; eauto using claims_holds). congruence. }
  assert (CL : forall v i, claimed s v i -> claimed s1 v i). { intros v i (w & k' & d' & c' & r' & A & B & C). exists w, k', d', c', r'. unfold s1; sf. split; auto. split; auto. rewrite (OT w k'); auto. }
  assert (LS : forall v i, (v, i) <> (u, j) -> listed s v i -> listed s1 v i). { intros v i N (d' & c' & A & B). exists d', c'. split; auto. unfold s1; sf. auto. }
  constructor; unfold s1; sf; auto.
  - intros d' c' v i X. apply IN in X. exact (LI _ _ _ _ X).
  - intros d' c'. destruct (updq_cases _ (q s) (negb d) c r d' c') as [(-> & -> & E)|[_ E]]; rewrite E; auto. pose proof (ND (negb d) c) as X. rewrite Q in X. inversion X; auto.
  - intros c'. assert (SUB : forall b, q s b c' = [] -> updq (q s) (negb d) c r b c' = []).
    { intros b X. destruct (updq (q s) (negb d) c r b c') as [|[v i] z] eqn:E; auto. exfalso. assert (Y : In (v, i) (q s b c')) by (apply IN; rewrite E; left; auto). rewrite X in Y. destruct Y. }
    destruct (ONE c') as [X|X]; [left|right]; auto.
  - intros v i m PL X Y L. fold s1. apply LS; [|eapply ALL; eauto]. intros E. injection E as -> ->. destruct X; congruence.
  - intros v. unfold own, s1; sf. fold s1. pose proof (OWN v) as O. unfold own in O. destruct (plain s v) eqn:PV; [eapply ownp_mono; [|exact O]; apply LS; congruence|eapply ownw_mono; [|exact O]; apply CL].
  - intros w k' d' c' X Y. unfold chan in *; sf. rewrite (OT w k') by auto. exact (HAND w k' d' c' X Y).
Qed.
(** handing over to the node claimed *)
Lemma hand_inv : forall s t u j k p d c r l, Inv s -> claims (at_ s t) = Some k -> bound (length (ops s t)) p = Some k \/ p = Fin k -> claims p = None -> chan s t k d c -> q s (negb d) c = (u, j) :: r ->
  (forall c u, l c = Some u <-> exists k d, holds (upd (at_ s) t p u) = Some k /\ chan s u k d c) -> (p = Fin k \/ (p = SatP k /\ plain s t = false)) ->
  (plain s t = false -> p = Fin k -> st s t = Won k) -> (plain s t = false -> p = SatP k -> st s t = Pend) ->
  Inv (S (ops s) (plain s) (els s) (st s) (upd (at_ s) t p) (upd (tok s) u true) l (updq (q s) (negb d) c r) (upd (upd (met s) t (met s t ++ [(k, u)])) u (upd (met s) t (met s t ++ [(k, u)]) u ++ [(j, t)]))).
Proof.
  intros s t u j k p d c r l I H1 HB HP CH Q HL PP S1 S2. pose proof I as [LK LEN BND LI ND ONE ALL OWN HAND].
  destruct (HAND t k d c H1 CH) as (u' & j' & r' & Q' & HU). rewrite Q in Q'. injection Q' as <- <- <-.
  assert (INU : In (u, j) (q s (negb d) c)) by (rewrite Q; left; auto). destruct (LI _ _ _ _ INU) as (CU & MU & PU).
  assert (OT : met s t = [] /\ tok s t = false /\ (plain s t = true -> k = 0)).
  { pose proof (OWN t) as O. unfold own in O. destruct (plain s t); destruct (at_ s t); try discriminate; cbn [claims ownp ownw] in *; try tauto; injection H1 as ->; repeat split; try tauto; discriminate. }
  destruct OT as (MT & TT & KZ).
  assert (UT : u <> t). { intros ->. destruct HU as [HU|HU]; [destruct (PU HU) as [X _]; rewrite X in H1; discriminate|]. destruct (at_ s t); try discriminate; destruct HU as (_ & _ & _ & _ & X); discriminate. }
  assert (TP : at_ s t <> Out) by (intros X; rewrite X in H1; discriminate).
  set (q1 := updq (q s) (negb d) c r). set (m1 := upd (upd (met s) t (met s t ++ [(k, u)])) u (upd (met s) t (met s t ++ [(k, u)]) u ++ [(j, t)])).
  set (s1 := S (ops s) (plain s) (els s) (st s) (upd (at_ s) t p) (upd (tok s) u true) l q1 m1).
  assert (MU1 : m1 u = met s u ++ [(j, t)]) by (unfold m1; rewrite upd_same, upd_other; auto).
  assert (MT1 : m1 t = [(k, u)]) by (unfold m1; rewrite upd_other, upd_same, MT by auto; auto).
  assert (MO : forall v, v <> t -> v <> u -> m1 v = met s v) by (intros v N1 N2; unfold m1; rewrite !upd_other by auto; auto).
  assert (IN : forall v i d' c', In (v, i) (q1 d' c') -> In (v, i) (q s d' c') /\ (v, i) <> (u, j)).
  { intros v i d' c' X. unfold q1 in X. destruct (updq_cases _ (q s) (negb d) c r d' c') as [(-> & -> & E)|[N E]]; rewrite E in X.
    - split; [rewrite Q; right; auto|]. intros Y. injection Y as -> ->. pose proof (ND (negb d) c) as Z0. rewrite Q in Z0. inversion Z0; contradiction.
    - split; auto. intros Y. injection Y as -> ->. destruct (same_chan s u j _ _ _ _ I INU X); destruct N; congruence. }
  assert (NI : forall v i d' c', In (v, i) (q s d' c') -> (v, i) <> (u, j) -> In (v, i) (q1 d' c')).
  { intros v i d' c' X N. unfold q1. destruct (updq_cases _ (q s) (negb d) c r d' c') as [(-> & -> & E)|[_ E]]; rewrite E; auto. rewrite Q in X. destruct X; [congruence|auto]. }
  assert (NB : forall i d' c', plain s u = true -> ~ In (u, i) (q1 d' c')).
  { intros i d' c' P X. destruct (IN _ _ _ _ X) as [Y N]. apply N. f_equal. rewrite (plain_zero s u i _ _ I P Y). symmetry. eapply plain_zero; eauto. }
  assert (OTH : forall w k' d' c', claims (at_ s w) = Some k' -> w <> t -> chan s w k' d' c' -> q1 (negb d') c' = q s (negb d') c').
  { intros w k' d' c' X N Y. unfold q1. destruct (Nat.eq_dec c' c) as [->|N1]; [|apply updq_other; auto]. exfalso. apply N. eapply lock_one; eauto using claims_holds. }
  assert (CL : forall v i, (v, i) <> (u, j) -> claimed s v i -> claimed s1 v i).
  { intros v i NE (w & k' & d' & c' & r' & A & B & C). destruct (Nat.eq_dec w t) as [->|N].
    - exfalso. assert (k' = k) by congruence. subst k'. unfold chan in *. assert (d' = d /\ c' = c) as [-> ->] by (split; congruence). congruence.
    - exists w, k', d', c', r'. unfold s1, chan in *; sf. rewrite upd_other by auto. split; auto. split; auto. rewrite (OTH w k'); auto. }
  assert (LS : forall v i, (v, i) <> (u, j) -> listed s v i -> listed s1 v i). { intros v i N (d' & c' & A & B). exists d', c'. split; [exact A|]. unfold s1; sf. apply NI; auto. }
  assert (BK : bound (length (ops s t)) (at_ s t) = Some k) by (destruct (at_ s t); discriminate || (cbn [claims bound] in *; auto)).
  constructor; unfold s1; sf; auto.
  - intros v X. at_t t v; auto.
  - intros v i X. at_t t v; auto. destruct PP as [-> |[-> _]]; [discriminate|]. cbn [bound] in X. injection X as <-. destruct (BND t k BK) as [B1 B2]. split; auto. intros _ _. apply B2; intros Z0; rewrite Z0 in H1; discriminate.
  - intros d' c' v i X. destruct (IN _ _ _ _ X) as [Y N]. destruct (LI _ _ _ _ Y) as (A & B & C). split; auto. at_t t v.
    + rewrite upd_other by auto. split; [|intros P; destruct (C P) as [C1 _]; rewrite C1 in H1; discriminate]. destruct PP as [-> |[-> _]]; cbn [mayl]; auto. destruct (at_ s t); try discriminate; cbn [claims] in H1; injection H1 as ->; exact B.
    + split; auto. intros P. destruct (C P) as [C1 C2]. split; auto. at_t u v; auto. exfalso. eapply NB; eauto.
  - intros d' c'. unfold q1. destruct (updq_cases _ (q s) (negb d) c r d' c') as [(-> & -> & E)|[_ E]]; rewrite E; auto. pose proof (ND (negb d) c) as X. rewrite Q in X. inversion X; auto.
  - intros c'. assert (SUB : forall b, q s b c' = [] -> q1 b c' = []).
    { intros b X. destruct (q1 b c') as [|[v i] z] eqn:E; auto. exfalso. assert (Y : In (v, i) (q s b c')) by (apply (IN v i b c'); rewrite E; left; auto). rewrite X in Y. destruct Y. }
    destruct (ONE c') as [X|X]; [left|right]; auto.
  - intros v i m PL X Y L. fold s1. apply LS.
    + intros E. injection E as -> ->. destruct HU as [HU|(_ & HU & _)]; [congruence|]. rewrite HU in X. destruct X; discriminate.
    + at_t t v; [|eapply ALL; eauto]. destruct PP as [-> |[-> _]]; [discriminate|]. cbn [bound] in Y. injection Y as <-. eapply ALL; eauto.
  - intros v. unfold own, s1; sf. fold s1. destruct (Nat.eq_dec v t) as [->|N1].
    + rewrite upd_same, upd_other, MT1, TT by auto. destruct (plain s t) eqn:PT.
      * destruct PP as [-> |[_ X]]; [|discriminate]. cbn [ownp]. split; auto. split; auto. eauto.
      * destruct PP as [-> |[-> _]]; cbn [ownw]; [split; [left; auto|]; split; auto; eauto|]. split; auto. split; auto. eauto.
    + rewrite (upd_other _ (at_ s)) by auto. pose proof (OWN v) as O. unfold own in O. destruct (Nat.eq_dec v u) as [->|N2].
      * rewrite upd_same, MU1. destruct (plain s u) eqn:PL.
        -- destruct (PU eq_refl) as [A B]. rewrite A in *. cbn [ownp] in *. right. exists t. destruct O as [(O1 & _)|(x & _ & O2)]; [|congruence]. rewrite O1. rewrite (plain_zero s u j _ _ I PL INU). auto.
        -- destruct HU as [HU|(_ & U1 & U2 & U3 & U4)]; [discriminate|]. rewrite U1, U2. destruct (at_ s u); try discriminate; cbn [ownw]; right; exists t; auto.
      * rewrite upd_other, MO by auto. destruct (plain s v); [eapply ownp_mono; [|exact O]; apply LS; congruence|eapply ownw_mono; [|exact O]; intros i; apply CL; congruence].
  - intros w k' d' c' X Y. unfold chan in *; sf. at_t t w; [congruence|]. rewrite (OTH w k'); auto. destruct (HAND w k' d' c' X Y) as (u' & j' & r' & A & C). exists u', j', r'. split; auto.
    destruct C as [C|(C1 & C2 & C3 & C4 & C5)]; auto. right.
    assert (u' <> t). { intros ->. destruct (at_ s t); try discriminate. }
    assert (u' <> u). { intros ->. destruct HU as [HU|(_ & HU & _)]; [congruence|]. rewrite C2 in HU. injection HU as ->. assert (In (u, j) (q s (negb d') c')) as Z0 by (rewrite A; left; auto).
      destruct (same_chan s u j _ _ _ _ I INU Z0) as [_ ->]. apply n. eapply lock_one; eauto using claims_holds. }
    rewrite !upd_other, MO by auto. auto 6.
Qed.
Lemma nodup_snoc : forall (l : list (nat * nat)) x, NoDup l -> ~ In x l -> NoDup (l ++ [x]).
Proof.
  induction l as [|a l IH]; intros x N H; cbn [app]; [repeat constructor; auto|]. inversion N; subst. constructor; [|apply IH; auto; intros X; apply H; right; auto].
  rewrite in_app_iff. cbn [In] in *. intuition.
Qed.
(** registering: the node is appended, the lock released *)
Lemma insert_inv : forall s t k p d c l, Inv s -> holds (at_ s t) = Some k -> bound (length (ops s t)) (at_ s t) = Some k -> claims (at_ s t) = None -> chan s t k d c -> q s (negb d) c = [] ->
  (forall c u, l c = Some u <-> exists k d, holds (upd (at_ s) t p u) = Some k /\ chan s u k d c) -> holds p = None -> bound (length (ops s t)) p = Some (k + 1) -> (p = Park \/ p = Else \/ (p = Lock (k + 1) /\ k + 1 < length (ops s t))) ->
  (plain s t = true -> p = Park /\ k = 0) -> (forall j, ~ In (t, j) (q s d c) \/ plain s t = false) -> (forall j, mayl (length (ops s t)) (at_ s t) j -> j < k) ->
  (forall j, plain s t = false -> st s t = Won j -> openp (at_ s t) = true) -> (plain s t = false -> st s t <> Sat /\ st s t <> Pend /\ openp (at_ s t) = true) -> (plain s t = true -> met s t = [] /\ tok s t = false /\ at_ s t <> Park) ->
  Inv (S (ops s) (plain s) (els s) (st s) (upd (at_ s) t p) (tok s) l (updq (q s) d c (q s d c ++ [(t, k)])) (met s)).
Proof.
  intros s t k p d c l I H1 H2 H3 CH Q HL HP BP PP PLN NI0 ML WO SO PO. pose proof I as [LK LEN BND LI ND ONE ALL OWN HAND].
  assert (KL : k < length (ops s t)) by (apply nth_error_Some; unfold chan in CH; congruence).
  assert (TP : at_ s t <> Out) by (intros X; rewrite X in H1; discriminate).
  assert (NK : forall d' c', ~ In (t, k) (q s d' c')). { intros d' c' X. apply LI in X. destruct X as (_ & X & _). apply ML in X. lia. }
  assert (MP : forall j, j < k + 1 -> mayl (length (ops s t)) p j). { intros j L. destruct PP as [->|[->|[-> _]]]; cbn [mayl bound] in *; inversion BP; lia. }
  set (q1 := updq (q s) d c (q s d c ++ [(t, k)])). set (s1 := S (ops s) (plain s) (els s) (st s) (upd (at_ s) t p) (tok s) l q1 (met s)).
  assert (NI : forall v i d' c', In (v, i) (q s d' c') -> In (v, i) (q1 d' c')).
  { intros v i d' c' X. unfold q1. destruct (updq_cases _ (q s) d c (q s d c ++ [(t, k)]) d' c') as [(-> & -> & E)|[_ E]]; rewrite E; auto. apply in_or_app; auto. }
  assert (IN : forall v i d' c', In (v, i) (q1 d' c') -> In (v, i) (q s d' c') \/ (v = t /\ i = k /\ d' = d /\ c' = c)).
  { intros v i d' c' X. unfold q1 in X. destruct (updq_cases _ (q s) d c (q s d c ++ [(t, k)]) d' c') as [(-> & -> & E)|[_ E]]; rewrite E in X; auto. apply in_app_or in X. destruct X as [X|[X|[]]]; auto. injection X as <- <-. auto. }
  assert (OTH : forall w k' d' c', claims (at_ s w) = Some k' -> chan s w k' d' c' -> q1 (negb d') c' = q s (negb d') c').
  { intros w k' d' c' X Y. unfold q1. destruct (Nat.eq_dec c' c) as [->|N1]; [|apply updq_other; auto]. exfalso. assert (w = t) by (eapply lock_one; eauto using claims_holds). congruence. }
  assert (CL : forall v i, claimed s v i -> claimed s1 v i).
  { intros v i (w & k' & d' & c' & r' & A & B & C). exists w, k', d', c', r'. unfold s1, chan in *; sf. rewrite upd_other by congruence. split; auto. split; auto. rewrite (OTH w k'); auto. }
  assert (LS : forall v i, listed s v i -> listed s1 v i). { intros v i (d' & c' & A & B). exists d', c'. split; [exact A|]. unfold s1; sf. apply NI; auto. }
  assert (LT : listed s1 t k). { exists d, c. split; [exact CH|]. unfold s1, q1; sf. rewrite updq_same. apply in_or_app. right. left. auto. }
  constructor; unfold s1; sf; auto.
  - intros v X. at_t t v; auto.
  - intros v i X. at_t t v; auto. rewrite BP in X. injection X as <-. split; [lia|]. intros A B. destruct PP as [->|[->|[_ Z0]]]; congruence || auto.
  - intros d' c' v i X. destruct (IN _ _ _ _ X) as [Y|(-> & -> & -> & ->)].
    + destruct (LI _ _ _ _ Y) as (A & B & C). split; auto. at_t t v; [|auto]. split; [apply MP; apply ML in B; lia|]. intros P. destruct (C P). destruct (PO P) as (_ & _ & Z0). congruence.
    + split; auto. rewrite upd_same. split; [apply MP; lia|]. intros P. split; [apply PLN; auto|apply PO; auto].
  - intros d' c'. unfold q1. destruct (updq_cases _ (q s) d c (q s d c ++ [(t, k)]) d' c') as [(-> & -> & E)|[_ E]]; rewrite E; auto. apply nodup_snoc; auto.
  - intros c'. destruct (Nat.eq_dec c' c) as [->|N]; [|unfold q1; rewrite !updq_other by auto; auto]. destruct d; [right|left]; unfold q1; rewrite updq_other by (left; discriminate); exact Q.
  - intros v i m PL X Y L. fold s1. at_t t v; [|apply LS; eapply ALL; eauto]. rewrite BP in Y. injection Y as <-. destruct (Nat.eq_dec m k) as [->|N]; auto. apply LS. eapply ALL; eauto. lia.
  - intros v. unfold own, s1; sf. fold s1. pose proof (OWN v) as O. unfold own in O. at_t t v.
    + destruct (plain s t) eqn:PT.
      * destruct (PLN eq_refl) as [-> ->]. destruct (PO eq_refl) as (O1 & O2 & _). cbn [ownp]. left. auto.
      * destruct (SO eq_refl) as (S1 & S2 & S3). assert (O' : ownw Park (st s t) (met s t) (tok s t) (claimed s1 t)).
        { eapply ownw_mono; [apply CL|]. destruct (at_ s t); try discriminate; cbn [ownw] in *; auto; destruct (st s t); tauto || congruence. }
        destruct PP as [->|[->|[-> _]]]; exact O'.
    + destruct (plain s v); [eapply ownp_mono; [|exact O]; apply LS|eapply ownw_mono; [|exact O]; apply CL].
  - intros w k' d' c' X Y. unfold chan in *; sf. at_t t w; [destruct p; discriminate|]. rewrite (OTH w k') by auto. destruct (HAND w k' d' c' X Y) as (u' & j' & r' & A & C). exists u', j', r'. split; auto.
    destruct C as [C|(C1 & C2 & C3 & C4 & C5)]; auto. right. at_t t u'; auto 6. split; auto. split; auto. split; auto. split; auto. destruct PP as [->|[->|[-> _]]]; auto.
Qed.
Lemma eqn_iff : forall a b, eqn a b = true <-> a = b.
Proof. intros [a1 a2] [b1 b2]. unfold eqn. cbn [fst snd]. rewrite andb_true_iff, !Nat.eqb_eq. split; [intros [-> ->]; auto|intros E; injection E; auto]. Qed.
Lemma unreg_inv : forall s t j d c, Inv s -> at_ s t = UnregL j -> chan s t j d c -> lk s c = None ->
  Inv (goto (set_q s d c (filter (fun e => negb (eqn (t, j) e)) (q s d c))) t (Unreg (j + 1))).
Proof.
  intros s t j d c I E CH L0. pose proof I as [LK LEN BND LI ND ONE ALL OWN HAND]. unfold goto, set_q. sf. fold (updq (q s) d c (filter (fun e => negb (eqn (t, j) e)) (q s d c))).
  set (l := filter (fun e => negb (eqn (t, j) e)) (q s d c)). set (q1 := updq (q s) d c l). set (s1 := S (ops s) (plain s) (els s) (st s) (upd (at_ s) t (Unreg (j + 1))) (tok s) (lk s) q1 (met s)).
  assert (PT : plain s t = false). { pose proof (OWN t) as O. unfold own in O. rewrite E in O. destruct (plain s t); auto. destruct O. }
  assert (FL : forall v i, In (v, i) l <-> In (v, i) (q s d c) /\ (v, i) <> (t, j)). { intros v i. unfold l. rewrite filter_In, negb_true_iff. split; intros [A B]; split; auto. - intros X. rewrite (proj2 (eqn_iff _ _)) in B; congruence. - destruct (eqn (t, j) (v, i)) eqn:X; auto. apply eqn_iff in X. congruence. }
  assert (IN : forall v i d' c', In (v, i) (q1 d' c') -> In (v, i) (q s d' c') /\ (v, i) <> (t, j)).
  { intros v i d' c' X. unfold q1 in X. destruct (updq_cases _ (q s) d c l d' c') as [(-> & -> & X1)|[N X1]]; rewrite X1 in X; [apply FL; auto|]. split; auto. intros Y. injection Y as -> ->. destruct (LI _ _ _ _ X) as [Z0 _]. unfold chan in *. rewrite CH in Z0. injection Z0 as <- <-. destruct N; congruence. }
  assert (NI : forall v i d' c', In (v, i) (q s d' c') -> (v, i) <> (t, j) -> In (v, i) (q1 d' c')).
  { intros v i d' c' X N. unfold q1. destruct (updq_cases _ (q s) d c l d' c') as [(-> & -> & X1)|[_ X1]]; rewrite X1; auto. apply FL; auto. }
  assert (OTH : forall w k' d' c', claims (at_ s w) = Some k' -> chan s w k' d' c' -> q1 (negb d') c' = q s (negb d') c').
  { intros w k' d' c' X Y. unfold q1. destruct (Nat.eq_dec c' c) as [->|N1]; [|apply updq_other; auto]. exfalso. assert (lk s c = Some w) by (apply LK; eauto using claims_holds). congruence. }
  assert (CL : forall v i, claimed s v i -> claimed s1 v i).
  { intros v i (w & k' & d' & c' & r' & A & B & C). exists w, k', d', c', r'. unfold s1, chan in *; sf. rewrite upd_other by (intros ->; rewrite E in A; discriminate). split; auto. split; auto. rewrite (OTH w k'); auto. }
  assert (LS : forall v i, (v, i) <> (t, j) -> listed s v i -> listed s1 v i). { intros v i N (d' & c' & A & B). exists d', c'. split; [exact A|]. unfold s1; sf. apply NI; auto. }
  pose proof (OWN t) as OT. unfold own in OT. rewrite PT, E in OT. cbn [ownw] in OT.
  constructor; unfold s1; sf; auto.
  - apply (lk_same s t (Unreg (j + 1)) I). rewrite E; auto.
  - intros v X. at_t t v; [|auto]. apply LEN. congruence.
  - intros v i X. at_t t v; [discriminate|auto].
  - intros d' c' v i X. destruct (IN _ _ _ _ X) as [Y N]. destruct (LI _ _ _ _ Y) as (A & B & C). split; auto. at_t t v; auto. rewrite E in B. cbn [mayl] in *. split; [|congruence]. assert (i <> j) by congruence. lia.
  - intros d' c'. unfold q1. destruct (updq_cases _ (q s) d c l d' c') as [(-> & -> & X1)|[_ X1]]; rewrite X1; auto. apply NoDup_filter. auto.
  - intros c'. assert (SUB : forall b, q s b c' = [] -> q1 b c' = []).
    { intros b X. destruct (q1 b c') as [|[v i] z] eqn:E1; auto. exfalso. assert (Y : In (v, i) (q s b c')) by (apply (IN v i b c'); rewrite E1; left; auto). rewrite X in Y. destruct Y. }
    destruct (ONE c') as [X|X]; [left|right]; auto.
  - intros v i m PL X Y L. fold s1. at_t t v; [discriminate|]. apply LS; [congruence|eapply ALL; eauto].
  - intros v. unfold own, s1; sf. fold s1. pose proof (OWN v) as O. unfold own in O. at_t t v; [rewrite PT; cbn [ownw]; auto|]. destruct (plain s v); [eapply ownp_mono; [|exact O]; apply LS; congruence|eapply ownw_mono; [|exact O]; apply CL].
  - intros w k' d' c' X Y. unfold chan in *; sf. at_t t w; [discriminate|]. rewrite (OTH w k') by auto. destruct (HAND w k' d' c' X Y) as (u' & j' & r' & A & C). exists u', j', r'. split; auto.
    destruct C as [C|(C1 & C2 & C3 & C4 & C5)]; auto. right. at_t t u'; [rewrite E in C5; discriminate|auto 6].
Qed.
Lemma begin_inv : forall s t l p e, Inv s -> at_ s t = Out -> 0 < length l -> (p = true -> length l = 1) -> Inv (begin s t l p e).
Proof.
  intros s t l p e I E LL LP. pose proof I as [LK LEN BND LI ND ONE ALL OWN HAND].
  assert (NI : forall j d c, ~ In (t, j) (q s d c)). { intros j d c X. apply LI in X. destruct X as (_ & X & _). rewrite E in X. exact X. }
  assert (CH : forall v k d c, v <> t -> chan (begin s t l p e) v k d c <-> chan s v k d c) by (intros; unfold chan; sf; rewrite upd_other by auto; tauto).
  assert (CL : forall v i, claimed s v i -> claimed (begin s t l p e) v i).
  { intros v i (w & k' & d' & c' & r' & A & B & C). assert (w <> t) by (intros ->; rewrite E in A; discriminate). exists w, k', d', c', r'. rewrite CH by auto. sf. rewrite upd_other by auto. auto. }
  assert (LS : forall v i, v <> t -> listed s v i -> listed (begin s t l p e) v i). { intros v i N (d' & c' & A & B). exists d', c'. rewrite CH by auto. auto. }
  assert (TT : tok s t = false). { pose proof (OWN t) as O. unfold own in O. rewrite E in O. destruct (plain s t); exact O. }
  constructor; sf; auto.
  - intros c v. rewrite LK. destruct (Nat.eq_dec v t) as [->|N].
    + rewrite E, upd_same. split; intros (k & d & A & _); discriminate.
    + rewrite upd_other by auto. split; intros (k & d & A & B); exists k, d; [rewrite CH by auto; auto|rewrite CH in B by auto; auto].
  - intros v X. at_t t v; auto.
  - intros v i X. at_t t v; auto. cbn [bound] in X. injection X as <-. split; [lia|auto].
  - intros d c v i X. assert (v <> t) by (intros ->; eapply NI; eauto). rewrite CH, !upd_other by auto. auto.
  - intros v i m PL X Y L. destruct (Nat.eq_dec v t) as [->|N]; [rewrite !upd_same in Y; cbn [bound] in Y; injection Y as <-; lia|]. rewrite !upd_other in * by auto. apply LS; auto. eapply ALL; eauto.
  - intros v. unfold own; sf. destruct (Nat.eq_dec v t) as [->|N]; [rewrite !upd_same; destruct p; cbn [ownp ownw]; auto|]. rewrite !upd_other by auto. pose proof (OWN v) as O. unfold own in O.
    destruct (plain s v); [eapply ownp_mono; [|exact O]; apply LS; auto|eapply ownw_mono; [|exact O]; apply CL].
  - intros w k d c X Y. destruct (Nat.eq_dec w t) as [->|N]; [rewrite upd_same in X; discriminate|]. rewrite upd_other in X by auto. apply CH in Y; auto. destruct (HAND w k d c X Y) as (u & j & r & A & C). exists u, j, r. split; auto.
    assert (u <> t) by (intros ->; apply (NI j (negb d) c); rewrite A; left; auto). rewrite !upd_other by auto. auto.
Qed.
Ltac stepd H := repeat match type of H with
  | context [match ?x with _ => _ end] => match x with context [match _ with _ => _ end] => fail 1 | _ => destruct x eqn:?; try discriminate end
  | Some _ = Some _ => injection H as <-
  end.
(** a step of another thread leaves alone what a lock holder relies on *)
Lemma frame : forall s t a s1, Inv s -> step s t a = Some s1 -> forall u, u <> t ->
  at_ s1 u = at_ s u /\ ops s1 u = ops s u /\ plain s1 u = plain s u /\ (st s1 u = st s u \/ exists j, st s1 u = Won j) /\ (forall d c, lk s c = Some u -> q s1 d c = q s d c).
Proof.
  intros s t a s1 I H u N. assert (LKT : forall k d c, holds (at_ s t) = Some k -> nth_error (ops s t) k = Some (d, c) -> lk s c = Some t) by (intros k d c A B; apply (v_lk s I); exists k, d; auto).
  unfold step, next, handoff in H. destruct (at_ s t) eqn:E; destruct a; try discriminate;
  stepd H; sf; rewrite ?upd_other by auto; (split; [auto|]); (split; [auto|]); (split; [auto|]);
  (split; [auto; try (destruct (Nat.eq_dec u n) as [->|]; [rewrite upd_same; eauto|rewrite upd_other by auto; auto]); try (match goal with |- upd _ ?v _ _ = _ \/ _ => destruct (Nat.eq_dec u v) as [->|]; [rewrite upd_same; eauto|rewrite upd_other by auto; auto] end)|]);
  intros d' c' L; auto.
  all: match goal with |- (if _ && (_ =? ?c) then _ else _) = _ => destruct (Nat.eqb_spec c' c) as [->|]; [|rewrite andb_false_r; auto] end.
  all: try congruence.
  all: match goal with X : nth_error _ _ = Some _ |- _ => pose proof (LKT _ _ _ eq_refl X) end; congruence.
Qed.
(** while thread t is about to take the front of the opposite queue, or has won its own race to do so, the front is a plain operation *)
Definition front (s : state) (d : bool) (c : nat) : Prop := exists u j r, q s (negb d) c = (u, j) :: r /\ plain s u = true.
Definition Head (s : state) : Prop := forall t k d c, plain s t = false -> chan s t k d c ->
  (at_ s t = Loop k -> front s d c) /\ (at_ s t = Avail k -> st s t = Unsat -> q s (negb d) c = [] \/ front s d c) /\ (at_ s t = PendF k -> st s t = Pend -> q s (negb d) c = []).
Lemma head_step : forall s t a s1, Inv s -> Head s -> step s t a = Some s1 -> Head s1.
Proof.
  intros s t a s1 I HD H u k d c PL CH. destruct (Nat.eq_dec u t) as [->|N].
  - unfold chan, front in *. pose proof (HD t) as HT. unfold chan, front in HT. pose proof (v_own s I t) as O. unfold own in O. unfold step, next, handoff in H. destruct (at_ s t) eqn:E; destruct a; try discriminate;
    stepd H; sf; rewrite ?upd_same in *; rewrite ?E in *; try (split; [|split]; intros; discriminate).
    all: try (split; [|split]; intros EQ; try discriminate; injection EQ as <-).
    all: try congruence.
    all: try (match goal with X : nth_error _ _ = _ |- _ => rewrite CH in X; injection X as <- <- end).
    all: try (intros ST; rewrite ?upd_same in ST; congruence || discriminate).
    all: try (destruct (HT _ _ _ PL CH) as (H1 & H2 & H3); eauto).
    all: try (match goal with X : q _ _ _ = _ |- _ => rewrite X in * end; eauto).
    all: rewrite ?PL in O; cbn [ownw] in O.
    all: try (destruct (H2 eq_refl eq_refl) as [X|X]; [discriminate|exact X]).
    all: try (intros ST; rewrite ST in *; cbn in O; destruct O; congruence).
    all: try (intros; right; do 3 eexists; split; [reflexivity|assumption]).
    all: destruct (H1 eq_refl) as (u & j & r & X & Y); injection X as <- <- <-; congruence.
  - destruct (frame s t a s1 I H u N) as (F1 & F2 & F3 & F4 & F5). unfold chan in CH. rewrite F1. rewrite F2 in CH. rewrite F3 in PL. destruct (HD u k d c PL CH) as (H1 & H2 & H3).
    assert (LKU : holds (at_ s u) = Some k -> lk s c = Some u) by (intros X; apply (v_lk s I); exists k, d; auto).
    assert (FR : holds (at_ s u) = Some k -> front s d c -> front s1 d c).
    { intros X (v & j & r & A & B). exists v, j, r. rewrite F5 by auto. split; auto. destruct (Nat.eq_dec v t) as [->|N2]; [|destruct (frame s t a s1 I H v N2) as (_ & _ & G & _); congruence].
      assert (Y : In (t, j) (q s (negb d) c)) by (rewrite A; left; auto). apply (v_list s I) in Y. destruct Y as (_ & Y & _). unfold step in H. destruct (at_ s t) eqn:E; try (destruct Y; fail); destruct a; try discriminate.
      all: unfold next, handoff in H; stepd H; sf; auto. }
    split; [|split]; intros X; rewrite X in *; cbn [holds] in *; auto.
    + intros Y. rewrite F5 by auto. destruct F4 as [F4|[j F4]]; [|congruence]. rewrite F4 in Y. destruct (H2 eq_refl Y); auto.
    + intros Y. rewrite F5 by auto. destruct F4 as [F4|[j F4]]; [|congruence]. rewrite F4 in Y. auto.
Qed.
Lemma move_inv2 : forall s s1 t p x b l, Inv s ->
  (forall c u, l c = Some u <-> exists k d, holds (upd (at_ s) t p u) = Some k /\ chan s u k d c) ->
  at_ s t <> Out ->
  (forall k, bound (length (ops s t)) p = Some k -> k <= length (ops s t) /\ (p <> Park -> p <> Else -> k < length (ops s t))) ->
  lists s t p -> (plain s t = true -> at_ s t <> Park \/ p <> Park) -> (b = tok s t \/ (b = false /\ (plain s t = true -> p <> Park))) ->
  (forall k j, plain s t = false -> x = Unsat \/ x = Pend -> bound (length (ops s t)) p = Some k -> j < k -> listed s t j) ->
  (if plain s t then ownp p (met s t) b (listed s t 0) else ownw p x (met s t) b (claimed s t)) ->
  claims (at_ s t) = None ->
  (forall k d c, claims p = Some k -> chan s t k d c -> exists u j r, q s (negb d) c = (u, j) :: r /\ u <> t /\ (plain s u = true \/ (plain s u = false /\ st s u = Won j /\ met s u = [] /\ tok s u = false /\ openp (at_ s u) = true))) ->
  (forall j, plain s t = false -> st s t = Won j -> openp (at_ s t) = true -> met s t = [] -> tok s t = false -> x = Won j /\ openp p = true /\ b = false) ->
  ops s1 = ops s -> plain s1 = plain s -> (forall v, st s1 v = upd (st s) t x v) -> (forall v, at_ s1 v = upd (at_ s) t p v) -> (forall v, tok s1 v = upd (tok s) t b v) -> (forall c, lk s1 c = l c) -> (forall d c, q s1 d c = q s d c) -> (forall v, met s1 v = met s v) -> Inv s1.
Proof. intros. eapply eq_inv; [apply (move_inv s t p x b l); auto|..]; sf; auto. Qed.
Ltac ids := intros; sf; auto using st_id, tok_id.
(** a move within one clause *)
Lemma within : forall s s1 t k p x l, Inv s -> bound (length (ops s t)) (at_ s t) = Some k -> bound (length (ops s t)) p = Some k -> at_ s t <> Park -> at_ s t <> Else -> p <> Park -> p <> Else ->
  (forall c u, l c = Some u <-> exists k d, holds (upd (at_ s) t p u) = Some k /\ chan s u k d c) ->
  (plain s t = false -> x = Unsat \/ x = Pend -> st s t = Unsat \/ st s t = Pend) ->
  (if plain s t then ownp p (met s t) (tok s t) (listed s t 0) else ownw p x (met s t) (tok s t) (claimed s t)) ->
  claims (at_ s t) = None ->
  (forall k d c, claims p = Some k -> chan s t k d c -> exists u j r, q s (negb d) c = (u, j) :: r /\ u <> t /\ (plain s u = true \/ (plain s u = false /\ st s u = Won j /\ met s u = [] /\ tok s u = false /\ openp (at_ s u) = true))) ->
  (plain s t = false -> forall j, st s t = Won j -> openp (at_ s t) = true -> x = Won j /\ openp p = true) ->
  ops s1 = ops s -> plain s1 = plain s -> (forall v, st s1 v = upd (st s) t x v) -> (forall v, at_ s1 v = upd (at_ s) t p v) -> (forall v, tok s1 v = tok s v) -> (forall c, lk s1 c = l c) -> (forall d c, q s1 d c = q s d c) -> (forall v, met s1 v = met s v) -> Inv s1.
Proof.
  intros s s1 t k p x l I B1 B2 N1 N2 N3 N4 HL HX OW CN HC HW Q1 Q2 Q3 Q4 Q5 Q6 Q7 Q8.
  assert (ML : forall n p j, (n, bound n p) = (n, Some k) -> mayl n p j <-> j < k).
  { intros n p0 j X. injection X as X. destruct p0; cbn [mayl bound] in *; try discriminate; injection X as ->; tauto. }
  apply (move_inv2 s s1 t p x (tok s t) l); auto.
  - intros X. rewrite X in B1. discriminate.
  - intros m X. rewrite B2 in X. injection X as <-. destruct (v_bnd s I t k B1) as [A B]. auto.
  - intros j d c X. apply (v_list s I) in X. destruct X as (A & B & C). apply ML in B; [|rewrite B1; auto]. split; [apply ML; [rewrite B2; auto|auto]|]. intros P. destruct (C P). congruence.
  - intros m j P X B L. rewrite B2 in B. injection B as <-. eapply (v_all s I); eauto.
  - intros j P X Y Z0 T. destruct (HW P j X Y). auto.
  - intros v. rewrite Q5. apply tok_id.
Qed.
(** registration of the clause given up: the next one *)
Lemma skip_inv : forall s t k d c, Inv s -> bound (length (ops s t)) (at_ s t) = Some k -> holds (at_ s t) = Some k -> chan s t k d c -> plain s t = false -> openp (at_ s t) = true -> claims (at_ s t) = None -> (exists j, st s t = Won j) -> Inv (next (set_lk s c None) t k).
Proof.
  intros s t k d c I B1 B2 CH PL OP CN (j & ST). unfold next. sf.
  set (p := if k + 1 <? length (ops s t) then Lock (k + 1) else if els s t then Else else Park).
  assert (KL : k < length (ops s t)) by (apply nth_error_Some; unfold chan in CH; congruence).
  assert (P : (p = Lock (k + 1) /\ k + 1 < length (ops s t)) \/ ((p = Else \/ p = Park) /\ length (ops s t) = k + 1)).
  { unfold p. destruct (Nat.ltb_spec (k + 1) (length (ops s t))); [left; auto|right]. destruct (els s t); split; auto; lia. }
  assert (HP : holds p = None) by (destruct P as [[-> _]|[[->| ->] _]]; auto).
  assert (CP : claims p = None) by (destruct P as [[-> _]|[[->| ->] _]]; auto).
  pose proof (v_own s I t) as O. unfold own in O. rewrite PL in O.
  apply (move_inv2 s _ t p (st s t) (tok s t) (upd (lk s) c None)); auto; try (ids; fail).
  - apply (lk_drop s t p k d c I); auto.
  - intros X. rewrite X in OP. discriminate.
  - intros m X. destruct P as [[-> L]|[[->| ->] L]]; cbn [bound] in X; injection X as <-; split; try lia; congruence.
  - intros i d0 c0 X. apply (v_list s I) in X. destruct X as (_ & X & _). split; [|congruence]. assert (i < k) by (destruct (at_ s t); cbn [holds bound mayl] in *; try discriminate; injection B1 as ->; auto). destruct P as [[-> L]|[[->| ->] L]]; cbn [mayl bound]; lia.
  - left. congruence.
  - intros m i _ [X|X]; congruence.
  - rewrite PL. assert (X : ownw Park (st s t) (met s t) (tok s t) (claimed s t)). { rewrite ST in *. destruct (at_ s t); try discriminate; cbn [ownw] in *; auto; destruct O; congruence. } destruct P as [[-> _]|[[->| ->] _]]; exact X.
  - intros. congruence.
  - intros i _ X _ _ TT. split; auto. split; auto. destruct P as [[-> _]|[[->| ->] _]]; auto.
Qed.
Lemma step_inv : forall s t a s1, Inv s -> Head s -> step s t a = Some s1 -> Inv s1.
Proof.
  intros s t a s1 I HD H. pose proof (v_own s I t) as O. unfold own in O. pose proof (HD t) as HT.
  assert (BK : forall k, bound (length (ops s t)) (at_ s t) = Some k -> k <= length (ops s t)) by (intros k X; apply (v_bnd s I) in X; tauto).
  assert (NT : forall k d c u j r, bound (length (ops s t)) (at_ s t) = Some k -> holds (at_ s t) = Some k -> chan s t k d c -> q s (negb d) c = (u, j) :: r -> (plain s t = true -> at_ s t <> Park) -> (u = t -> plain s t = false /\ j < k)).
  { intros k d c u j r B HO CH Q NP ->. assert (X : In (t, j) (q s (negb d) c)) by (rewrite Q; left; auto). apply (v_list s I) in X. destruct X as (_ & X & Y). split; [destruct (plain s t); auto; exfalso; destruct Y; auto; apply NP; auto|].
    destruct (at_ s t); cbn [holds bound mayl] in *; try discriminate; injection B as ->; auto. }
  unfold step in H. destruct (at_ s t) eqn:E; destruct a; try discriminate.
  - (* Out *) destruct l as [|x r]; [discriminate|]. injection H as <-. apply begin_inv; auto; destruct p; cbn [length]; try lia; discriminate.
  - (* Lock *) destruct (nth_error (ops s t) k) as [[d c]|] eqn:CH; [|discriminate]. destruct (lk s c) eqn:L; [discriminate|]. injection H as <-.
    apply (within s _ t k (if plain s t then Loop k else Top k) (st s t) (upd (lk s) c (Some t))); rewrite ?E; try (ids; fail); try discriminate; try (destruct (plain s t); discriminate || reflexivity).
    + apply (lk_take s t _ k d c I); auto; [rewrite E; auto|destruct (plain s t); auto].
    + destruct (plain s t); cbn [ownp ownw] in *; auto.
    + intros P. rewrite P. auto.
  - (* Top *) destruct (nth_error (ops s t) k) as [[d c]|] eqn:CH; [|discriminate].
    destruct (plain s t) eqn:PL; [destruct O|]. 
    assert (MV : Inv (goto s t (Avail k))).
    { apply (within s _ t k (Avail k) (st s t) (lk s)); rewrite ?E; try (ids; fail); try discriminate; try reflexivity; first [solve [apply (lk_same s t _ I); rewrite E; auto]|solve [rewrite PL; exact O]|solve [auto]]. }
    destruct (q s (negb d) c) as [|[u j] r] eqn:Q; [injection H as <-; exact MV|]. destruct (plain s u) eqn:PU; [injection H as <-; exact MV|]. destruct (st s t) eqn:ST; injection H as <-.
    + cbn [ownw] in O. apply (within s _ t k (PendL k) Pend (lk s)); rewrite ?E; try (ids; fail); try discriminate; try reflexivity; first [solve [apply (lk_same s t _ I); rewrite E; auto]|solve [rewrite ST; auto]|solve [rewrite PL; cbn [ownw]; tauto]|solve [congruence]].
    + exact I.
    + destruct O.
    + apply (skip_inv s t k d c); rewrite ?E; auto. eauto.
  - (* PendL *) destruct (nth_error (ops s t) k) as [[d c]|] eqn:CH; [|discriminate]. destruct (plain s t) eqn:PL; [destruct O|]. cbn [ownw] in O. destruct O as (ST & M & T).
    assert (MV : forall p, bound (length (ops s t)) p = Some k -> holds p = Some k -> p <> Park -> p <> Else -> ownw p Pend [] false (claimed s t) -> (forall k' d' c', claims p = Some k' -> chan s t k' d' c' -> k' = k -> exists u j r, q s (negb d') c' = (u, j) :: r /\ u <> t /\ plain s u = true) -> Inv (goto s t p)).
    { intros p B HP N1 N2 OW CL. apply (within s _ t k p (st s t) (lk s)); rewrite ?E; auto; try (ids; fail); try discriminate; try (solve [apply (lk_same s t _ I); rewrite E; auto]); try (solve [rewrite PL, ST, M, T; auto]).
      intros k0 d0 c0 X Y. assert (k0 = k) by (destruct p; try discriminate; cbn [claims holds] in *; congruence). destruct (CL _ _ _ X Y) as (u & j & r & A1 & A2 & A3); auto. exists u, j, r. auto. }
    destruct (q s (negb d) c) as [|[u j] r] eqn:Q; [injection H as <-; apply MV; auto; discriminate || (cbn [ownw]; auto)|].
    assert (UT : plain s u = true \/ st s u <> Pend -> u <> t) by (intros X ->; destruct X; congruence).
    destruct (plain s u) eqn:PU; [injection H as <-; apply MV; auto; try discriminate; [cbn [ownw]; auto|]|].
    { intros k' d' c' _ Y ->. unfold chan in Y. rewrite CH in Y. injection Y as <- <-. exists u, j, r. auto. }
    destruct (st s u) eqn:SU; injection H as <-.
    + apply (win_inv s t u j k (HandP k) d c r); rewrite ?E; auto; try discriminate; [apply UT; right; congruence|]. rewrite PL. cbn [ownw]. auto.
    + apply MV; auto; try discriminate. cbn [ownw]; auto.
    + rewrite ST. apply (discard_inv s t u j k d c r); rewrite ?E; auto; congruence.
    + rewrite ST. apply (discard_inv s t u j k d c r); rewrite ?E; auto; congruence.
  - (* Tog1 *) injection H as <-. destruct (plain s t) eqn:PL; [destruct O|]. cbn [ownw] in O. destruct O as (ST & M & T).
    apply (within s _ t k (Tog2 k) Unsat (lk s)); rewrite ?E; try (ids; fail); try discriminate; try reflexivity; first [solve [apply (lk_same s t _ I); rewrite E; auto]|solve [rewrite ST; auto]|solve [rewrite PL; cbn [ownw]; auto]].
  - (* Tog2 *) injection H as <-. destruct (plain s t) eqn:PL; [destruct O|]. cbn [ownw] in O. destruct (st s t) eqn:ST; try (destruct O; fail).
    + apply (within s _ t k (PendL k) Pend (lk s)); rewrite ?E; try (ids; fail); try discriminate; try reflexivity; first [solve [apply (lk_same s t _ I); rewrite E; auto]|solve [rewrite ST; auto]|solve [rewrite PL; cbn [ownw]; tauto]|solve [congruence]].
    + apply (within s _ t k (PendF k) (st s t) (lk s)); rewrite ?E; try (ids; fail); try discriminate; try reflexivity; first [solve [apply (lk_same s t _ I); rewrite E; auto]|solve [rewrite PL, ST; cbn [ownw]; auto]|solve [auto]].
  - (* PendF *) injection H as <-. destruct (plain s t) eqn:PL; [destruct O|]. cbn [ownw] in O. destruct (st s t) eqn:ST; try (destruct O; fail).
    + apply (within s _ t k (Avail k) Unsat (lk s)); rewrite ?E; try (ids; fail); try discriminate; try reflexivity; first [solve [apply (lk_same s t _ I); rewrite E; auto]|solve [rewrite ST; auto]|solve [rewrite PL; cbn [ownw]; tauto]|solve [congruence]].
    + apply (within s _ t k (Avail k) (st s t) (lk s)); rewrite ?E; try (ids; fail); try discriminate; try reflexivity; first [solve [apply (lk_same s t _ I); rewrite E; auto]|solve [rewrite PL, ST; cbn [ownw]; auto]|solve [auto]].
  - (* Avail *) destruct (nth_error (ops s t) k) as [[d c]|] eqn:CH; [|discriminate]. destruct (plain s t) eqn:PL; [destruct O|]. cbn [ownw] in O.
    destruct (q s (negb d) c) as [|[u j] r] eqn:Q.
    + injection H as <-. unfold next. sf. fold (updq (q s) d c (q s d c ++ [(t, k)])). set (p := if k + 1 <? length (ops s t) then Lock (k + 1) else if els s t then Else else Park).
      assert (KL : k < length (ops s t)) by (apply nth_error_Some; congruence).
      assert (P : (p = Lock (k + 1) /\ k + 1 < length (ops s t)) \/ ((p = Else \/ p = Park) /\ length (ops s t) = k + 1)).
      { unfold p. destruct (Nat.ltb_spec (k + 1) (length (ops s t))); [left; auto|right]. destruct (els s t); split; auto; lia. }
      assert (HP : holds p = None) by (destruct P as [[-> _]|[[->| ->] _]]; auto).
      apply (insert_inv s t k p d c (upd (lk s) c None)); rewrite ?E; auto; try congruence.
      * apply (lk_drop s t p k d c I); rewrite ?E; auto.
      * destruct P as [[-> _]|[[->| ->] L]]; cbn [bound]; congruence.
      * destruct P as [[-> L]|[[->| ->] L]]; auto.
      * intros _. destruct (st s t); try (destruct O; fail); split; try split; congruence || auto.
    + destruct (st s t) eqn:ST; try (destruct O; fail); injection H as <-.
      * apply (within s _ t k (Loop k) (Won k) (lk s)); rewrite ?E; try (ids; fail); try discriminate; try reflexivity; first [solve [apply (lk_same s t _ I); rewrite E; auto]|solve [intros _ [X|X]; discriminate]|solve [rewrite PL; cbn [ownw]; tauto]|solve [congruence]].
      * apply (skip_inv s t k d c); rewrite ?E; auto. eauto.
  - (* Loop *) destruct (nth_error (ops s t) k) as [[d c]|] eqn:CH; [|discriminate].
    destruct (q s (negb d) c) as [|[u j] r] eqn:Q.
    + injection H as <-. destruct (plain s t) eqn:PL.
      * cbn [ownp] in O. destruct O as (-> & M & T). unfold goto, set_lk, set_q. sf. fold (updq (q s) d c (q s d c ++ [(t, 0)])).
        assert (LN : length (ops s t) = 1). { destruct (v_len s I t); [rewrite E; discriminate|auto]. }
        apply (insert_inv s t 0 Park d c (upd (lk s) c None)); rewrite ?E; auto; try discriminate; try congruence.
        -- apply (lk_drop s t Park 0 d c I); rewrite ?E; auto.
        -- cbn [bound]. rewrite LN. auto.
        -- intros i. left. intros X. apply (v_list s I) in X. destruct X as (_ & _ & X). destruct X; auto. congruence.
        -- repeat split; auto. discriminate.
      * destruct (HT k d c eq_refl CH) as (X & _). destruct (X eq_refl) as (u & j & r & Y & _). congruence.
    + assert (UT : u <> t). { intros ->. destruct (NT k d c t j r) as [X L]; rewrite ?E; auto; try discriminate. destruct (HT k d c X CH) as (Y & _). destruct (Y eq_refl) as (u & j' & r' & Z1 & Z2). rewrite Q in Z1. injection Z1 as <- <- <-. congruence. }
      destruct (plain s u) eqn:PU.
      * injection H as <-. apply (within s _ t k (Hand k) (st s t) (lk s)); rewrite ?E; try (ids; fail); try discriminate; try reflexivity; try (solve [apply (lk_same s t _ I); rewrite E; auto]).
        -- intros k' d' c' X Y. injection X as <-. unfold chan in Y. rewrite CH in Y. injection Y as <- <-. exists u, j, r. auto.
      * destruct (st s u) eqn:SU; injection H as <-.
        -- apply (win_inv s t u j k (Hand k) d c r); rewrite ?E; auto; try discriminate.
        -- exact I.
        -- apply (discard_inv s t u j k d c r); rewrite ?E; auto; congruence.
        -- apply (discard_inv s t u j k d c r); rewrite ?E; auto; congruence.
  - (* Hand *) destruct (nth_error (ops s t) k) as [[d c]|] eqn:CH; [|discriminate]. unfold handoff in H. destruct (q s (negb d) c) as [|[u j] r] eqn:Q; [discriminate|]. injection H as <-.
    apply (hand_inv s t u j k (Fin k) d c r (upd (lk s) c None)); rewrite ?E; auto; try discriminate.
    + apply (lk_drop s t _ k d c I); rewrite ?E; auto.
    + intros PL _. rewrite PL in O. apply O.
  - (* HandP *) destruct (nth_error (ops s t) k) as [[d c]|] eqn:CH; [|discriminate]. unfold handoff in H. destruct (q s (negb d) c) as [|[u j] r] eqn:Q; [discriminate|]. injection H as <-.
    destruct (plain s t) eqn:PL; [destruct O|]. apply (hand_inv s t u j k (SatP k) d c r (lk s)); rewrite ?E; auto; try discriminate.
    + apply (lk_same s t _ I); rewrite ?E; auto.
    + intros _ _. apply O.
  - (* SatP *) destruct (nth_error (ops s t) k) as [[d c]|] eqn:CH; [|discriminate]. injection H as <-. destruct (plain s t) eqn:PL; [destruct O|]. cbn [ownw] in O.
    apply (move_inv2 s _ t (Fin k) Sat (tok s t) (upd (lk s) c None)); rewrite ?E; auto; try (ids; fail); try discriminate; try congruence.
    + apply (lk_drop s t _ k d c I); rewrite ?E; auto.
    + intros i d0 c0 X. cbn [mayl]. split; auto. congruence.
    + rewrite PL. cbn [ownw]. tauto.
  - (* Else *) injection H as <-. destruct (plain s t) eqn:PL; [destruct O|]. cbn [ownw] in O. destruct (st s t) eqn:ST; try (destruct O; fail).
    + apply (move_inv2 s _ t FinElse Sat (tok s t) (lk s)); rewrite ?E; auto; try (ids; fail); try discriminate; try congruence.
      * apply (lk_same s t _ I); rewrite ?E; auto.
      * intros i d0 c0 X. cbn [mayl]. split; auto. congruence.
      * rewrite PL. cbn [ownw]. tauto.
    + apply (move_inv2 s _ t Park (st s t) (tok s t) (lk s)); rewrite ?E; auto; try (ids; fail); try discriminate; try congruence.
      * apply (lk_same s t _ I); rewrite ?E; auto.
      * intros m X. cbn [bound] in X. injection X as <-. split; [lia|congruence].
      * intros i d0 c0 X. apply (v_list s I) in X. rewrite E in X. cbn [mayl bound] in *. split; [tauto|congruence].
      * intros m i _ [X|X]; congruence.
      * rewrite PL, ST. exact O.
  - (* Park *) destruct (tok s t) eqn:T; [|discriminate]. injection H as <-.
    destruct (plain s t) eqn:PL.
    + cbn [ownp] in O. destruct O as [(_ & X & _)|(u & M & _)]; [discriminate|]. apply (move_inv2 s _ t (Fin 0) (st s t) false (lk s)); rewrite ?E; auto; try (ids; fail); try discriminate; try congruence.
      * apply (lk_same s t _ I); rewrite ?E; auto.
      * intros i d0 c0 X. apply (v_list s I) in X. destruct X as (_ & _ & X). destruct X; auto. congruence.
      * right. discriminate.
      * right. split; auto. discriminate.
      * rewrite PL. cbn [ownp]. eauto.
    + cbn [ownw] in O. destruct (st s t) eqn:ST; try (destruct O as [_ O]; discriminate); try (destruct O; fail). destruct O as [(_ & X & _)|(u & M & _)]; [discriminate|].
      apply (move_inv2 s _ t (Fin k) (st s t) false (lk s)); rewrite ?E; auto; try (ids; fail); try discriminate; try congruence.
      * apply (lk_same s t _ I); rewrite ?E; auto.
      * intros i d0 c0 X. cbn [mayl]. split; auto. congruence.
      * right. split; auto. discriminate.
      * rewrite PL. cbn [ownw]. eauto.
  - (* Fin *) injection H as <-. destruct (plain s t) eqn:PL.
    + apply (move_inv2 s _ t Out (st s t) (tok s t) (lk s)); rewrite ?E; auto; try (ids; fail); try discriminate; try congruence.
      * apply (lk_same s t _ I); rewrite ?E; auto.
      * intros i d0 c0 X. apply (v_list s I) in X. destruct X as (_ & _ & X). destruct X; auto. congruence.
      * right. discriminate.
      * rewrite PL. apply O.
    + apply (move_inv2 s _ t (Unreg 0) (st s t) (tok s t) (lk s)); rewrite ?E; auto; try (ids; fail); try discriminate; try congruence.
      * apply (lk_same s t _ I); rewrite ?E; auto.
      * intros i d0 c0 X. cbn [mayl]. split; [lia|congruence].
      * rewrite PL. cbn [ownw] in *. destruct O as (A & B & u & C). rewrite C. cbn [length]. repeat split; auto; destruct A; congruence.
  - (* FinElse *) injection H as <-. destruct (plain s t) eqn:PL; [destruct O|].
    apply (move_inv2 s _ t (Unreg 0) (st s t) (tok s t) (lk s)); rewrite ?E; auto; try (ids; fail); try discriminate; try congruence.
    * apply (lk_same s t _ I); rewrite ?E; auto.
    * intros i d0 c0 X. cbn [mayl]. split; [lia|congruence].
    * rewrite PL. cbn [ownw] in *. destruct O as (A & B & C). rewrite A, B, C. cbn [length]. repeat split; auto; congruence.
  - (* Unreg *) destruct (plain s t) eqn:PL; [destruct O|]. cbn [ownw] in O. destruct (nth_error (ops s t) j) as [[d c]|] eqn:CH.
    + injection H as <-. destruct (existsb (eqn (t, j)) (q s d c)) eqn:EX.
      * apply (move_inv2 s _ t (UnregL j) (st s t) (tok s t) (lk s)); rewrite ?E; auto; try (ids; fail); try discriminate; try congruence.
        -- apply (lk_same s t _ I); rewrite ?E; auto.
        -- intros i d0 c0 X. apply (v_list s I) in X. rewrite E in X. cbn [mayl] in *. split; [tauto|congruence].
        -- rewrite PL. exact O.
      * apply (move_inv2 s _ t (Unreg (j + 1)) (st s t) (tok s t) (lk s)); rewrite ?E; auto; try (ids; fail); try discriminate; try congruence.
        -- apply (lk_same s t _ I); rewrite ?E; auto.
        -- intros i d0 c0 X. pose proof X as Y. apply (v_list s I) in X. rewrite E in X. cbn [mayl] in *. split; [|congruence]. destruct X as (A & B & _). assert (i <> j); [|lia]. intros ->. unfold chan in A. rewrite CH in A. injection A as <- <-.
           assert (existsb (eqn (t, j)) (q s d c) = true); [|congruence]. apply existsb_exists. exists (t, j). split; auto. apply eqn_iff. auto.
        -- rewrite PL. exact O.
    + injection H as <-. apply (move_inv2 s _ t Out (st s t) (tok s t) (lk s)); rewrite ?E; auto; try (ids; fail); try discriminate; try congruence.
      * apply (lk_same s t _ I); rewrite ?E; auto.
      * intros i d0 c0 X. apply (v_list s I) in X. rewrite E in X. cbn [mayl] in *. destruct X as (A & B & _). exfalso. unfold chan in A. apply nth_error_None in CH. assert (i < length (ops s t)) by (apply nth_error_Some; congruence). lia.
      * rewrite PL. cbn [ownw]. tauto.
  - (* UnregL *) destruct (nth_error (ops s t) j) as [[d c]|] eqn:CH; [|discriminate]. destruct (lk s c) eqn:L; [discriminate|]. injection H as <-. apply unreg_inv; auto.
  - (* NoBody *) destruct (plain s t); destruct O.
Qed.
Lemma reach_inv : forall s, reach s -> Inv s /\ Head s.
Proof.
  induction 1 as [|s t a s1 R [I HD] H]; [split; [apply start_inv|intros t k d c P; discriminate]|]. split; [eapply step_inv; eauto|eapply head_step; eauto].
Qed.
Lemma run_reach : forall l s s1, reach s -> run s l = Some s1 -> reach s1.
Proof. induction l as [|[t a] l IH]; intros s s1 R H; cbn [run] in H; [congruence|]. destruct (step s t a) eqn:E; [|discriminate]. eapply IH; [|exact H]. eapply reach_step; eauto. Qed.
(** another thread decides a status word only from the queue of a channel whose lock it holds *)
Lemma st_other : forall s t a s1 u, Inv s -> step s t a = Some s1 -> u <> t -> st s1 u = st s u \/ exists j d c, In (u, j) (q s d c) /\ lk s c = Some t.
Proof.
  intros s t a s1 u I H N. assert (LKT : forall k d c, holds (at_ s t) = Some k -> nth_error (ops s t) k = Some (d, c) -> lk s c = Some t) by (intros k d c A B; apply (v_lk s I); exists k, d; auto).
  unfold step, next, handoff in H. destruct (at_ s t) eqn:E; destruct a; try discriminate; stepd H; sf; rewrite ?upd_other by auto; auto.
  all: match goal with |- upd _ ?v _ _ = _ \/ _ => destruct (Nat.eq_dec u v) as [->|]; [|rewrite upd_other by auto; auto] end.
  all: right; match goal with X : q _ ?d ?c = (?v, ?j) :: _ |- _ => exists j, d, c; rewrite X; split; [left; auto|] end; eapply LKT; [|eassumption]; reflexivity.
Qed.
Definition spin (p : pc) (x : status) : Prop := p = PendL 1 /\ x = Pend \/ p = Tog1 1 /\ x = Pend \/ p = Tog2 1 /\ x = Unsat.
Definition stuck (s : state) : Prop := reach s /\ plain s 1 = false /\ ops s 1 = [(true, 0); (false, 0)] /\ q s true 0 = [(1, 0)] /\ lk s 0 = Some 1 /\ spin (at_ s 1) (st s 1).
Lemma stuck_step : forall s t a s1, stuck s -> step s t a = Some s1 -> stuck s1.
Proof.
  intros s t a s1 (R & P & OPS & Q & L & SP) H. destruct (reach_inv s R) as [I _]. assert (R1 : reach s1) by (eapply reach_step; eauto). split; auto. destruct (Nat.eq_dec t 1) as [->|N].
  - unfold step in H. destruct SP as [[E X]|[[E X]|[E X]]]; rewrite E in H; destruct a; try discriminate.
    + rewrite OPS in H. cbn [nth_error negb] in H. rewrite Q, P, X in H. injection H as <-. sf. repeat split; auto. right. left. auto.
    + injection H as <-. sf. rewrite !upd_same. repeat split; auto. right. right. auto.
    + rewrite X in H. injection H as <-. sf. rewrite !upd_same. repeat split; auto. left. auto.
  - destruct (frame s t a s1 I H 1 (not_eq_sym N)) as (F1 & F2 & F3 & _ & F5). rewrite F1, F2, F3, F5 by auto. repeat split; auto.
    + apply (v_lk s1); [apply reach_inv; auto|]. apply (v_lk s I) in L. destruct L as (k & d & A & B). exists k, d. rewrite F1. split; auto. unfold chan in *. congruence.
    + destruct (st_other s t a s1 1 I H) as [->|(j & d & c & A & B)]; auto. exfalso. apply (v_list s I) in A. destruct A as (A & _). unfold chan in A. rewrite OPS in A. assert (c = 0) by (destruct j as [|[|j]]; cbn in A; congruence || (destruct j; discriminate)). congruence.
Qed.
