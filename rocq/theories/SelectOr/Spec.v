From Coq Require Import List Bool Arith.
From Verif.SelectOr Require Import Model.
Import ListNotations.
Inductive reach : state -> Prop :=
  | reach_start : reach start
  | reach_step : forall s t a s1, reach s -> step s t a = Some s1 -> reach s1.
