From Coq Require Import List Bool Arith ZArith.
From Verif.Snzi Require Import Model.
Inductive reach (t : tree) (k : nat) : state -> Prop :=
  | reach_start : reach t k (start k)
  | reach_step : forall s i a s1, reach t k s -> step t s i a = Some s1 -> reach t k s1.
(** every node leads to the one root *)
Definition wf (t : tree) : Prop :=
  (forall h p, h < m t -> parent t h = Some p -> h < p < m t) /\ (forall h, h < m t -> parent t h = None -> h + 1 = m t).
Definition idle (s : state) : Prop := forall k, In k (thr s) -> k = nil.
