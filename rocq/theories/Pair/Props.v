From Coq Require Import List Bool ZArith Lia.
From Verif.Pair Require Import Model Spec Proofs.
Import ListNotations.

(** C21: with totally ordered components, the six operators on pairs are those of the lexicographic total order. *)
Theorem C21_lexicographic : forall R S (r : ops R) (s : ops S) LR LS, total r LR -> total s LS ->
  total (pops r s) (lex LR LS).
Proof. intros. apply lex_total; auto. Qed.
Print Assumptions C21_lexicographic.

Lemma six : forall (P Q X : Prop) (e n l le g ge l' : bool), (P \/ Q) -> (P -> Q -> X) -> (X -> P) -> (X -> Q) ->
  (e = true <-> X) -> (n = true <-> ~ X) -> (l = true <-> ~ Q) -> (le = true <-> P) -> (g = true <-> ~ P) ->
  (ge = true <-> Q) -> (l' = true <-> ~ P) -> n = negb e /\ ge = negb l /\ g = negb le /\ g = l' /\ le = l || e.
Proof. intros P Q X e n l le g ge l'. destruct e, n, l, le, g, ge, l'; cbn [negb orb]; intuition discriminate. Qed.

Theorem C21_consistent : forall R S (r : ops R) (s : ops S) LR LS (p q : R * S), total r LR -> total s LS ->
  pne r s p q = negb (peq r s p q) /\ pge r s p q = negb (plt r s p q) /\ pgt r s p q = negb (ple r s p q) /\
  pgt r s p q = plt r s q p /\ ple r s p q = plt r s p q || peq r s p q.
Proof.
  intros R S r s LR LS p q HR HS. pose proof (lex_total r s LR LS HR HS) as T.
  apply (six (lex LR LS p q) (lex LR LS q p) (p = q)).
  - apply (t_total _ _ T).
  - apply (t_anti _ _ T).
  - intros ->. apply (t_refl _ _ T).
  - intros ->. apply (t_refl _ _ T).
  - apply (t_eq _ _ T).
  - apply (t_ne _ _ T).
  - apply (t_lt _ _ T).
  - apply (t_le _ _ T).
  - apply (t_gt _ _ T).
  - apply (t_ge _ _ T).
  - apply (t_lt _ _ T).
Qed.
Print Assumptions C21_consistent.

Definition zops : ops Z := Ops Z Z.eqb (fun x y => negb (Z.eqb x y)) Z.ltb Z.leb Z.gtb Z.geb.
Lemma zops_total : total zops Z.le.
Proof. constructor; cbn [zops eq ne lt le gt ge]; intros; rewrite ?Z.gtb_ltb, ?Z.geb_leb; lia || (rewrite ?negb_true_iff; rewrite ?Z.eqb_eq, ?Z.eqb_neq, ?Z.ltb_lt, ?Z.leb_le; lia). Qed.
Example ex_pair : plt zops zops (1, 9)%Z (2, 0)%Z = true /\ pgt zops zops (2, 3)%Z (2, 2)%Z = true /\
  plt zops (pops zops zops) (1, (5, 2))%Z (1, (5, 3))%Z = true /\ pge zops zops (2, 3)%Z (2, 4)%Z = false.
Proof. vm_compute. auto. Qed.

(** maybe: after the constructor and any calls, the value is stored iff present, no field is constructed twice, used raw
    or destroyed raw, get returns the last value stored and is refused when there is none. *)
Definition mstep {T} (m : maybe T) (o : mop T) : outcome (maybe T) :=
  match o with MSet v => m_set m v | MSetNone => m_set_none m | MAssign x => m_assign m (mobj x) end.
Fixpoint mrun {T} (m : maybe T) (l : list (mop T)) : outcome (maybe T) :=
  match l with [] => Done m | o :: r => bind (mstep m o) (fun m' => mrun m' r) end.
Theorem C21_maybe : forall T (c : option T) (l : list (mop T)), exists m0 m,
  match c with Some v => m_value mraw v | None => m_none mraw end = Done m0 /\
  mrun m0 l = Done m /\ m = mobj (fold_left (fun c o => mnext o c) l c) /\
  m_get m = match fold_left (fun c o => mnext o c) l c with Some v => Done v | None => Refused end /\
  has m = match fold_left (fun c o => mnext o c) l c with Some v => true | None => false end /\
  m_copy mraw m = Done m /\ exists m', m_destroy m = Done m' /\ value m' = None.
Proof.
  intros T c l. exists (mobj c). exists (mobj (fold_left (fun c o => mnext o c) l c)).
  split; [destruct c; reflexivity|]. split.
  - revert c. induction l as [|o l IH]; intros c; cbn [mrun fold_left]; auto.
    assert (S : mstep (mobj c) o = Done (mobj (mnext o c))) by (destruct c, o as [v| |[v|]]; reflexivity).
    rewrite S. cbn [bind]. apply IH.
  - split; auto. destruct (fold_left _ l c); cbn; repeat split; eexists; split; reflexivity.
Qed.
Print Assumptions C21_maybe.

(** result: likewise, with a value or an error. *)
Definition rstep {T E} (m : rslt T E) (o : rop T E) : outcome (rslt T E) :=
  match o with RSet v => r_set m v | RSetError e => r_set_error m e | RAssign x => r_assign m (robj x) end.
Fixpoint rrun {T E} (m : rslt T E) (l : list (rop T E)) : outcome (rslt T E) :=
  match l with [] => Done m | o :: r => bind (rstep m o) (fun m' => rrun m' r) end.
Theorem C21_result : forall T E (c : T + E) (l : list (rop T E)), exists m0 m,
  match c with inl v => r_value rraw v | inr e => r_error rraw e end = Done m0 /\
  rrun m0 l = Done m /\ m = robj (fold_left (fun c o => rnext o c) l c) /\
  r_get m = match fold_left (fun c o => rnext o c) l c with inl v => Done v | inr _ => Refused end /\
  r_get_error m = match fold_left (fun c o => rnext o c) l c with inl _ => Refused | inr e => Done e end /\
  r_copy rraw m = Done m /\ exists m', r_destroy m = Done m' /\ ru m' = None.
Proof.
  intros T E c l. exists (robj c). exists (robj (fold_left (fun c o => rnext o c) l c)).
  split; [destruct c; reflexivity|]. split.
  - revert c. induction l as [|o l IH]; intros c; cbn [rrun fold_left]; auto.
    assert (S : rstep (robj c) o = Done (robj (rnext o c))) by (destruct c as [cv|ce], o as [v|e|[v|e]]; reflexivity).
    rewrite S. cbn [bind]. apply IH.
  - split; auto. destruct (fold_left _ l c); cbn; repeat split; eexists; repeat split.
Qed.
Print Assumptions C21_result.
Example ex_result : rrun (robj (inr 7)) [RSet true; RSetError 3; RAssign (inl false)] = Done (Rs true (Some (inl false))).
Proof. reflexivity. Qed.

(** The value of an assignment expression between results is undefined (the operator does not return). *)
Theorem C21_result_assignment_value_refuted : exists T E (m o : rslt T E) m', r_assign m o = Done m' /\ r_assign_result m o <> Done m'.
Proof. exists bool, bool, (robj (inl true)), (robj (inl false)), (robj (inl false)). split; [reflexivity|discriminate]. Qed.
Print Assumptions C21_result_assignment_value_refuted.

(** C69: min and max of any number of arguments return a least and a greatest argument under any strict weak order. *)
Theorem C69_min_max : forall T (ltb : T -> T -> bool) a b l, weak ltb ->
  In (minv ltb a b l) (a :: b :: l) /\ (forall x, In x (a :: b :: l) -> ltb x (minv ltb a b l) = false) /\
  In (maxv ltb a b l) (a :: b :: l) /\ (forall x, In x (a :: b :: l) -> ltb (maxv ltb a b l) x = false).
Proof.
  intros T ltb a b l W. revert a b. induction l as [|c l IH]; intros a b; cbn [minv maxv].
  - unfold min, max. assert (AS : forall x y, ltb x y = true -> ltb y x = false).
    { intros x y H. destruct (ltb y x) eqn:E; auto. rewrite <- (w_irr _ W x). symmetry. apply (w_trans _ W x y x); auto. }
    destruct (ltb a b) eqn:E; cbn [negb]; repeat split; cbn [In]; auto; intros x [<-|[<-|[]]]; auto using w_irr.
  - destruct (IH b c) as (I1 & I2 & I3 & I4).
    assert (TR : forall x y z, ltb y x = false -> ltb z y = false -> ltb z x = false).
    { intros x y z H1 H2. destruct (ltb z x) eqn:E; auto. destruct (w_neg _ W z y x E); congruence. }
    assert (AS : forall x y, ltb x y = true -> ltb y x = false).
    { intros x y H. destruct (ltb y x) eqn:E; auto. rewrite <- (w_irr _ W x). symmetry. apply (w_trans _ W x y x); auto. }
    unfold min at 1 2. unfold max at 1 2. set (m := minv ltb b c l) in *. set (M := maxv ltb b c l) in *.
    split; [destruct (ltb a m); cbn [In]; auto|]. split.
    + intros x [<-|HX].
      * destruct (ltb a m) eqn:E; auto using w_irr.
      * destruct (ltb a m) eqn:E; auto. apply (TR a m x); auto.
    + split; [destruct (ltb a M); cbn [negb In]; auto|]. intros x [<-|HX].
      * destruct (ltb a M) eqn:E; cbn [negb]; auto using w_irr.
      * destruct (ltb a M) eqn:E; cbn [negb]; auto. apply (TR x M a); auto.
Qed.
Print Assumptions C69_min_max.

(** Of two arguments, one is the minimum and the other the maximum, even when they are equivalent. *)
Theorem C69_partition : forall T (ltb : T -> T -> bool) a b,
  (min ltb a b = a /\ max ltb a b = b) \/ (min ltb a b = b /\ max ltb a b = a).
Proof. intros. unfold min, max. destruct (ltb a b); auto. Qed.
Print Assumptions C69_partition.

(** clamp returns a value within the bounds, and the argument itself when that is within. *)
Theorem C69_clamp : forall T (ltb : T -> T -> bool) v lo hi, weak ltb -> ltb hi lo = false ->
  ltb (clamp ltb v lo hi) lo = false /\ ltb hi (clamp ltb v lo hi) = false /\
  (ltb lo v = true -> ltb v hi = true -> clamp ltb v lo hi = v).
Proof.
  intros T ltb v lo hi W H. unfold clamp, max, min.
  assert (AS : forall x y, ltb x y = true -> ltb y x = false).
  { intros x y K. destruct (ltb y x) eqn:E; auto. rewrite <- (w_irr _ W x). symmetry. apply (w_trans _ W x y x); auto. }
  destruct (ltb v hi) eqn:E1.
  - destruct (ltb lo v) eqn:E2; cbn [negb]; repeat split; auto using w_irr; congruence.
  - destruct (ltb lo hi) eqn:E2; cbn [negb]; repeat split; auto using w_irr; congruence.
Qed.
Print Assumptions C69_clamp.

(** abs on integers; in a fixed width the most negative value has no absolute value. *)
Theorem C69_abs : forall v : Z, abs Z.ltb 0%Z Z.opp v = Z.abs v.
Proof. intros. unfold abs. destruct (Z.ltb_spec v 0); lia. Qed.
Print Assumptions C69_abs.
Definition neg32 (v : Z) : Z := ((- v + 2 ^ 31) mod 2 ^ 32 - 2 ^ 31)%Z.
Theorem C69_abs_fixed_width_refuted : exists v, (- 2 ^ 31 <= v < 2 ^ 31 /\ abs Z.ltb 0 neg32 v < 0)%Z.
Proof. exists (- 2 ^ 31)%Z. split; [lia|]. vm_compute. reflexivity. Qed.
Print Assumptions C69_abs_fixed_width_refuted.

(** swap exchanges two objects (or leaves a single one alone) and nothing else. *)
Theorem C69_swap : forall A V (dec : A -> A -> bool) (st : A -> V) p q, (forall x y, dec x y = true <-> x = y) ->
  swap dec st p q p = st q /\ swap dec st p q q = st p /\ forall x, x <> p -> x <> q -> swap dec st p q x = st x.
Proof.
  intros A V dec st p q D. assert (R : forall x, dec x x = true) by (intros; apply D; auto).
  assert (N : forall x y, x <> y -> dec x y = false) by (intros x y H; destruct (dec x y) eqn:E; auto; apply D in E; contradiction).
  unfold swap. repeat split.
  - rewrite R. destruct (dec p q) eqn:E; auto. apply D in E. now subst.
  - now rewrite R.
  - intros x X Y. now rewrite !N by auto.
Qed.
Print Assumptions C69_swap.
Example ex_common : (minv Z.ltb 3 1 [2; 1] = 1 /\ maxv Z.ltb 3 1 [7; 1] = 7 /\ clamp Z.ltb 9 1 5 = 5)%Z.
Proof. vm_compute. auto. Qed.
