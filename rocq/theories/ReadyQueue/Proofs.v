From Coq Require Import ZArith List Bool Lia ZifyBool Permutation.
From Verif.ReadyQueue Require Import Model Spec.
Import ListNotations.
Open Scope nat_scope.

Ltac Zify.zify_post_hook ::= Z.to_euclidean_division_equations.
Fixpoint chain (rd : nat -> link) (k : link) (l : list nat) : Prop :=
  match l with [] => k = L None MAX | t :: r => next k = Some t /\ sensible (ts k) /\ chain rd (rd t) r end.
Fixpoint lastp (p : ptr) (l : list nat) : ptr := match l with [] => p | t :: r => lastp (T t) r end.
(** the lanes below cap hold the lists f *)
Record Rep (q : queue) (f : nat -> list nat) : Prop := {
  p_chain : forall i, i < cap q -> chain (rdy q) (anchor q i) (f i);
  p_last : forall i, i < cap q -> prev q i = lastp (A (base q) i) (f i);
  p_none : forall i, cap q <= i -> f i = [];
  p_nodup : forall i, NoDup (f i);
  p_disj : forall i j t, In t (f i) -> In t (f j) -> i = j;
  p_clear : forall t, (forall i, ~ In t (f i)) -> rdy q t = L None MAX }.
Lemma upd_same : forall X (f : nat -> X) i x, upd f i x i = x.
Proof. intros. unfold upd. rewrite Nat.eqb_refl. auto. Qed.
Lemma upd_other : forall X (f : nat -> X) i x j, j <> i -> upd f i x j = f j.
Proof. intros. unfold upd. destruct (Nat.eqb_spec j i); congruence. Qed.
Lemma put_same : forall f i l, put f i l i = l.
Proof. intros. unfold put. rewrite Nat.eqb_refl. auto. Qed.
Lemma put_other : forall f i l j, j <> i -> put f i l j = f j.
Proof. intros. unfold put. destruct (Nat.eqb_spec j i); congruence. Qed.
Lemma chain_ext : forall rd rd' l k, (forall t, In t l -> rd' t = rd t) -> chain rd k l -> chain rd' k l.
Proof.
  induction l as [|t l IH]; intros k E C; cbn [chain] in *; auto. destruct C as (N & S & C). split; auto. split; auto. rewrite E by (left; auto). apply IH; auto.
  intros u U. apply E. right. auto.
Qed.
Lemma chain_empty : forall rd k l, chain rd k l -> (next k = None <-> l = []).
Proof. intros rd k [|t l] C; cbn [chain] in C; [subst; split; auto|]. destruct C as (N & _). rewrite N. split; discriminate. Qed.
Lemma chain_ts : forall rd k l, chain rd k l -> (ts k = MAX <-> l = []) /\ (ts k <> 0)%Z.
Proof.
  intros rd k [|t l] C; cbn [chain] in C.
  - subst. cbn [ts]. split; [tauto|]. unfold MAX. lia.
  - destruct C as (_ & S & _). unfold sensible in S. unfold MAX. split; [|lia]. split; [lia|discriminate].
Qed.
Lemma chain_snoc : forall rd now t, sensible now -> rd t = L None MAX -> forall l k u, chain rd k (l ++ [u]) -> NoDup (l ++ [u]) -> ~ In t (l ++ [u]) ->
  chain (upd rd u (L (Some t) now)) k ((l ++ [u]) ++ [t]).
Proof.
  intros rd now t S E. induction l as [|x l IH]; intros k u C N I; cbn [app chain] in *.
  - destruct C as (C1 & C2 & C3). split; auto. split; auto. rewrite upd_same. cbn [next ts]. split; auto. split; auto. rewrite upd_other; auto. cbn [In] in I. intros ->. tauto.
  - destruct C as (C1 & C2 & C3). split; auto. split; auto. inversion N; subst. rewrite upd_other.
    + apply IH; [auto|auto|intros X; apply I; right; auto].
    + intros ->. apply H1. apply in_or_app. right. left. auto.
Qed.
Lemma chain_last : forall rd l k u, chain rd k (l ++ [u]) -> rd u = L None MAX.
Proof. induction l as [|x l IH]; intros k u C; cbn [app chain] in C; destruct C as (_ & _ & C); [auto|]. eapply IH. exact C. Qed.
Lemma lastp_snoc : forall l p u, lastp p (l ++ [u]) = T u.
Proof. induction l; intros; cbn [app lastp]; auto. Qed.
Lemma empty_iff : forall q f i, Rep q f -> i < cap q -> (is_empty q i = true <-> f i = []).
Proof.
  intros q f i R I. pose proof (chain_empty _ _ _ (p_chain _ _ R i I)) as E. unfold is_empty. destruct (next (anchor q i)); rewrite <- E; split; congruence.
Qed.
Lemma eqp_refl : forall p, eqp p p = true.
Proof. intros []; cbn [eqp]; rewrite ?Nat.eqb_refl; auto. Qed.
Lemma in_put : forall f i l j t, In t (put f i l j) -> (j = i /\ In t l) \/ (j <> i /\ In t (f j)).
Proof. intros f i l j t I. unfold put in I. destruct (Nat.eqb_spec j i); auto. Qed.
(** appending t to lane i, given the new links *)
Lemma rep_snoc : forall q f q1 i t, Rep q f -> i < cap q -> (forall j, ~ In t (f j)) -> base q1 = base q -> cap q1 = cap q ->
  (forall j, j < cap q -> chain (rdy q1) (anchor q1 j) (put f i (f i ++ [t]) j)) -> prev q1 = upd (prev q) i (T t) ->
  (forall x, (forall j, ~ In x (f j)) -> rdy q1 x = rdy q x) -> Rep q1 (put f i (f i ++ [t])).
Proof.
  intros q f q1 i t R I NT EB EC CH PV CL. constructor; rewrite ?EC; auto.
  - intros j J. rewrite PV, EB. destruct (Nat.eq_dec j i) as [->|D]; [rewrite upd_same, put_same, lastp_snoc; auto|]. rewrite upd_other, put_other by auto. apply (p_last _ _ R); auto.
  - intros j J. rewrite put_other by lia. apply (p_none _ _ R); auto.
  - intros j. destruct (Nat.eq_dec j i) as [->|D]; [|rewrite put_other by auto; apply (p_nodup _ _ R)]. rewrite put_same.
    apply (Permutation_NoDup (Permutation_cons_append (f i) t)). constructor; [apply NT|apply (p_nodup _ _ R)].
  - intros j k x X Y. assert (Z : forall j, In x (put f i (f i ++ [t]) j) -> (j = i /\ x = t) \/ In x (f j)).
    { clear j k X Y. intros j X. apply in_put in X. destruct X as [[-> X]|[D X]]; auto. apply in_app_iff in X. destruct X as [X|[->|[]]]; auto. }
    apply Z in X, Y. destruct X as [[-> ->]|X], Y as [[-> E]|Y]; auto; try (exfalso; eapply NT; eauto; fail).
    + subst. exfalso. eapply NT; eauto.
    + eapply (p_disj _ _ R); eauto.
  - intros x X. assert (Y : forall j, ~ In x (f j)).
    { intros j J. apply (X j). destruct (Nat.eq_dec j i) as [->|D]; [rewrite put_same; apply in_or_app; auto|rewrite put_other; auto]. }
    rewrite CL by auto. apply (p_clear _ _ R); auto.
Qed.
Lemma push_ok : forall q f i t now, Rep q f -> i < cap q -> (forall j, ~ In t (f j)) -> sensible now ->
  exists q1, push q i t now = Ok q1 /\ Rep q1 (put f i (f i ++ [t])) /\ base q1 = base q /\ cap q1 = cap q /\ count q1 = count q /\ total q1 = total q /\ pref q1 = pref q.
Proof.
  intros q f i t now R I NT S. pose proof (p_clear _ _ R t NT) as CT. pose proof (p_chain _ _ R i I) as C. pose proof (p_last _ _ R i I) as PL.
  unfold push. rewrite (proj2 (Nat.ltb_lt _ _)) by auto. cbn [negb].
  assert (CLR : clear (L None MAX) = true) by reflexivity. destruct (chain_ts _ _ _ C) as [TS T0].
  assert (D : f i = [] \/ exists l u, f i = l ++ [u]) by (destruct (f i) as [|u l] using rev_ind; eauto).
  destruct D as [E|(l & u & E)]; rewrite E in C, PL, TS.
  - cbn [lastp chain] in PL, C. rewrite PL. cbn [deref]. rewrite Nat.eqb_refl, (proj2 (Nat.ltb_lt _ _)) by auto. cbn [andb bind].
    rewrite CT, C, CLR. cbn [negb]. unfold is_empty. rewrite C. cbn [next ts]. rewrite Z.eqb_refl, eqp_refl. cbn [negb orb].
    eexists. split; [reflexivity|]. cbn [set_prev assign base cap count total pref]. split; auto.
    apply rep_snoc with q; cbn [set_prev assign base cap anchor prev rdy]; auto.
    intros j J. destruct (Nat.eq_dec j i) as [->|D].
    + rewrite upd_same, put_same, E. cbn [app chain next ts]. auto.
    + rewrite upd_other, put_other by auto. apply (p_chain _ _ R); auto.
  - rewrite lastp_snoc in PL. rewrite PL. cbn [deref bind]. pose proof (chain_last _ _ _ _ C) as CU. rewrite CT, CU, CLR. cbn [negb].
    assert (EM : is_empty q i = false).
    { unfold is_empty. destruct (next (anchor q i)) eqn:N; auto. apply (chain_empty _ _ _ C) in N. destruct l; discriminate. }
    rewrite EM. assert (TM : (ts (anchor q i) =? MAX)%Z = false). { apply Z.eqb_neq. intros X. apply TS in X. destruct l; discriminate. }
    rewrite TM, (proj2 (Z.eqb_neq _ _) T0). cbn [orb eqp]. eexists. split; [reflexivity|]. cbn [set_prev assign base cap count total pref]. split; auto.
    assert (IU : In u (f i)) by (rewrite E; apply in_or_app; right; left; auto).
    apply rep_snoc with q; cbn [set_prev assign base cap anchor prev rdy]; auto.
    + intros j J. destruct (Nat.eq_dec j i) as [->|D].
      * rewrite put_same, E. apply chain_snoc; auto; rewrite <- E; [apply (p_nodup _ _ R)|apply NT].
      * rewrite put_other by auto. apply chain_ext with (rdy q); [|apply (p_chain _ _ R); auto]. intros x X. apply upd_other. intros ->. apply D. eapply (p_disj _ _ R); eauto.
    + intros x X. apply upd_other. intros ->. apply (X i). auto.
Qed.
Lemma pop_ok : forall q f i t r, Rep q f -> i < cap q -> f i = t :: r ->
  exists q1 a, pop q i = Ok (q1, t, a) /\ Rep q1 (put f i r) /\ base q1 = base q /\ cap q1 = cap q /\ count q1 = count q /\ total q1 = total q /\ pref q1 = pref q.
Proof.
  intros q f i t r R I E. pose proof (p_chain _ _ R i I) as C. pose proof (p_last _ _ R i I) as PL. pose proof (chain_ts _ _ _ C) as [TS T0]. rewrite E in C, PL, TS.
  cbn [chain lastp] in C, PL. destruct C as (N & S & C). unfold pop. rewrite (proj2 (Nat.ltb_lt _ _)) by auto. cbn [negb]. rewrite N.
  assert (TM : (ts (anchor q i) =? MAX)%Z = false). { apply Z.eqb_neq. intros X. apply TS in X. discriminate. }
  rewrite TM, (proj2 (Z.eqb_neq _ _) T0). cbn [orb]. cbv zeta.
  assert (NT : ~ In t r) by (pose proof (p_nodup _ _ R i) as ND; rewrite E in ND; inversion ND; auto).
  set (q1 := assign (assign q (A (base q) i) (rdy q t)) (T t) (L None MAX)).
  assert (A1 : anchor q1 i = rdy q t) by (cbn [q1 assign anchor]; apply upd_same).
  set (q2 := if is_empty q1 i then set_prev q1 i (A (base q) i) else q1).
  assert (A2 : anchor q2 = anchor q1) by (unfold q2; destruct (is_empty q1 i); auto). assert (B2 : base q2 = base q) by (unfold q2; destruct (is_empty q1 i); auto).
  assert (C2 : cap q2 = cap q) by (unfold q2; destruct (is_empty q1 i); auto). assert (R2 : rdy q2 = rdy q1) by (unfold q2; destruct (is_empty q1 i); auto).
  assert (EM : is_empty q1 i = true <-> r = []). { unfold is_empty. rewrite A1. rewrite <- (chain_empty _ _ _ C). destruct (next (rdy q t)); split; congruence. }
  rewrite A2, A1. destruct (chain_ts _ _ _ C) as [TS2 T02]. rewrite (proj2 (Z.eqb_neq _ _) T02). cbn [orb].
  assert (EQ : Bool.eqb (ts (rdy q t) =? MAX)%Z (is_empty q1 i) = true).
  { apply Bool.eqb_true_iff. destruct (Z.eqb_spec (ts (rdy q t)) MAX) as [X|X]; symmetry.
    - apply EM. apply TS2. auto.
    - destruct (is_empty q1 i) eqn:Y; auto. exfalso. apply X. apply TS2. apply EM. auto. }
  rewrite EQ. cbn [negb]. do 2 eexists. split; [reflexivity|].
  assert (IT : In t (f i)) by (rewrite E; left; auto).
  split; [|split; [auto|split; [auto|]]; unfold q2; destruct (is_empty q1 i); auto].
  constructor; rewrite ?C2, ?B2.
  - intros j J. rewrite A2, R2. cbn [q1 assign anchor rdy]. destruct (Nat.eq_dec j i) as [->|D].
    + rewrite upd_same, put_same. apply chain_ext with (rdy q); auto. intros x X. apply upd_other. congruence.
    + rewrite upd_other, put_other by auto. apply chain_ext with (rdy q); [|apply (p_chain _ _ R); auto]. intros x X. apply upd_other. intros ->. apply D. eapply (p_disj _ _ R); eauto.
  - intros j J. destruct (Nat.eq_dec j i) as [->|D].
    + rewrite put_same. destruct r as [|u r].
      * unfold q2. rewrite (proj2 EM eq_refl). cbn [set_prev prev]. apply upd_same.
      * assert (Y : is_empty q1 i = false) by (destruct (is_empty q1 i); auto; discriminate (proj1 EM eq_refl)). unfold q2. rewrite Y. cbn [q1 assign prev]. rewrite PL. auto.
    + rewrite put_other by auto. assert (PJ : prev q2 j = prev q j) by (unfold q2; destruct (is_empty q1 i); cbn [set_prev q1 assign prev]; auto; apply upd_other; auto).
      rewrite PJ. apply (p_last _ _ R); auto.
  - intros j J. rewrite put_other by lia. apply (p_none _ _ R); auto.
  - intros j. destruct (Nat.eq_dec j i) as [->|D]; [|rewrite put_other by auto; apply (p_nodup _ _ R)]. rewrite put_same. pose proof (p_nodup _ _ R i) as ND. rewrite E in ND. inversion ND; auto.
  - intros j k x X Y. assert (Z : forall j, In x (put f i r j) -> In x (f j)).
    { clear j k X Y. intros j X. apply in_put in X. destruct X as [[-> X]|[D X]]; auto. rewrite E. right. auto. }
    eapply (p_disj _ _ R); eauto.
  - intros x X. rewrite R2. cbn [q1 assign rdy]. destruct (Nat.eq_dec x t) as [->|D]; [apply upd_same|]. rewrite upd_other by auto. apply (p_clear _ _ R).
    intros j J. apply (X j). destruct (Nat.eq_dec j i) as [->|D']; [|rewrite put_other; auto]. rewrite put_same. rewrite E in J. destruct J; [congruence|auto].
Qed.
