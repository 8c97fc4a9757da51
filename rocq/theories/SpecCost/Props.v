From Coq Require Import List Bool ZArith Lia.
From Verif Require Import SpecCost.Model SpecCost.Spec SpecCost.Proofs.
Import ListNotations.
Local Open Scope Z_scope.
(** C110: the specialization cost is the number of levels above the shallowest type variable, 0 without one.
    Full statement: forall t, size t < mx -> specCost t = cost t. It fails for generic types with several arguments (C110_refuted), hence the condition simple. *)
Theorem C110_partial : forall t, simple t = true -> size t < mx -> specCost t = cost t.
Proof.
  intros t Hs Hz. assert (R := visit_right t Hs Hz). unfold right in R. unfold specCost, cost. destruct (depth t) as [d|].
  - destruct R as [Hv Hd]. rewrite Hv. destruct (Z.leb_spec 0 d); lia.
  - rewrite R. reflexivity.
Qed.
Print Assumptions C110_partial.
(** a type without variables costs nothing *)
Theorem C110_mono : forall t, depth t = None -> specCost t = 0.
Proof. intros t H. unfold specCost. rewrite (visit_mono t H). reflexivity. Qed.
Print Assumptions C110_mono.
(** the cost is not negative *)
Theorem C110_nonneg : forall t, 0 <= specCost t.
Proof. intros t. unfold specCost. destruct (Z.leb_spec 0 (visit t (-1))); lia. Qed.
Print Assumptions C110_nonneg.
(** one more level, one more cost: for any type that the visit finds polymorphic *)
Theorem C110_level : forall t, 0 <= visit t (-1) -> specCost (Level t) = specCost t + 1.
Proof.
  intros t H. unfold specCost. cbn [visit]. unfold inc. destruct (Z.leb_spec 0 (visit t (-1))); [|lia]. destruct (Z.leb_spec 0 (visit t (-1) + 1)); lia.
Qed.
Print Assumptions C110_level.
(** levels of a later argument that has nothing to do with the variable are added; a later argument that is a structure or a function without variables
    hides the variable; of two variables the last counts, not the shallowest *)
Fixpoint levels (k : nat) (t : ty) : ty := match k with O => t | S k => Level (levels k t) end.
Theorem C110_refuted : forall k,
  specCost (Inst [(false, Var); (false, levels k Leaf)]) = Z.of_nat k + 1 /\ cost (Inst [(false, Var); (false, levels k Leaf)]) = 1 /\
  specCost (Inst [(false, levels k Leaf); (false, Var)]) = 1 /\
  specCost (Inst [(false, Var); (false, Inst [])]) = 0 /\ cost (Inst [(false, Var); (false, Inst [])]) = 1 /\
  specCost (Inst [(false, Var); (false, levels k Var)]) = Z.of_nat k + 1 /\ cost (Inst [(false, Var); (false, levels k Var)]) = 1 /\
  specCost (Inst [(false, levels k Var); (false, Var)]) = 1.
Proof.
  intros k.
  assert (V : forall t c, (forall c, visit t c = 0) -> visit (levels k t) c = Z.of_nat k).
  { intros t c Ht. induction k as [|k IH]; [apply Ht|]. cbn [levels visit]. rewrite IH. unfold inc. destruct (Z.leb_spec 0 (Z.of_nat k)); lia. }
  assert (L : visit (levels k Leaf) 0 = Z.of_nat k).
  { induction k as [|k IH]; [reflexivity|]. cbn [levels visit]. rewrite IH by (intros t c Ht; clear - Ht; induction k as [|k IH]; [apply Ht|]; cbn [levels visit]; rewrite IH; unfold inc; destruct (Z.leb_spec 0 (Z.of_nat k)); lia).
    unfold inc. destruct (Z.leb_spec 0 (Z.of_nat k)); lia. }
  assert (D : depth (levels k Leaf) = None) by (clear; induction k as [|k IH]; [reflexivity|]; cbn [levels depth]; rewrite IH; reflexivity).
  assert (DV : exists d, depth (levels k Var) = Some d /\ 0 <= d).
  { clear. induction k as [|k IH]; [exists 0; split; [reflexivity|lia]|]. destruct IH as [d [E Hd]]. exists (1 + d). cbn [levels depth]. rewrite E. split; [reflexivity|lia]. }
  assert (VV : forall c, visit (levels k Var) c = Z.of_nat k) by (intros c; apply V; reflexivity).
  assert (N : 0 <= Z.of_nat k) by lia. unfold specCost, cost. rewrite !visit_inst. cbn [fold_left step depth map snd]. rewrite D.
  destruct DV as [d [-> Hd]]. cbn [visit least fold_right omin option_map better Z.eqb Pos.eqb negb andb].
  change (noneOrInc mx) with (-1). rewrite L, VV. unfold inc.
  repeat split; try reflexivity.
  - destruct (Z.leb_spec 0 (Z.of_nat k)); [|lia]. destruct (Z.leb_spec 0 (Z.of_nat k + 1)); lia.
  - destruct (Z.leb_spec 0 (Z.of_nat k)); [|lia]. destruct (Z.leb_spec 0 (Z.of_nat k + 1)); lia.
  - cbn [option_map]. rewrite Z.min_l by lia. reflexivity.
Qed.
Print Assumptions C110_refuted.
(** a pointer to a function with an int and a reference to a triple of an int pointer, T and int, that returns a T pointer pointer pointer *)
Definition example : ty := Level (Func [Leaf; Level (Inst [(false, Level Leaf); (false, Var); (false, Leaf)])] [Level (Level (Level Var))]).
Example ex_simple : simple example = true /\ size example < mx. Proof. split; reflexivity. Qed.
Example ex_cost : specCost example = 4 /\ cost example = 4. Proof. split; reflexivity. Qed.
Example ex_tuple : specCost (Tuple [Leaf; Level Var; Level (Level Var)]) = 2. Proof. reflexivity. Qed.
(** the pair of T and an int pointer, and the other way round *)
Example ex_order : specCost (Inst [(false, Var); (false, Level Leaf)]) = 2 /\ specCost (Inst [(false, Level Leaf); (false, Var)]) = 1. Proof. split; reflexivity. Qed.
