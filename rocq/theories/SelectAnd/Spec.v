From Coq Require Import List Bool Arith ZArith.
From Verif.SelectAnd Require Import Model.
Inductive reach (c : cfg) : state -> Prop :=
  | reach_start : reach c (start c)
  | reach_step : forall s a s1, reach c s -> step c s a = Some s1 -> reach c s1.
(** no waker is at work on a node of the waiter *)
Definition quiet (s : state) : Prop := forall i, busy (nd s i) = false.
Definition met (x : status) : bool := match x with UNSAT => false | _ => true end.
