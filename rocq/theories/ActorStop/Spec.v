(* Executions, and what the user must do. *)

From Coq Require Import List Arith ZArith Bool.
From Verif.ActorStop Require Import Model.
Import ListNotations.
Open Scope nat_scope.

(* All executions. *)
Inductive any : st -> Prop :=
| any_init : any init
| any_step : forall s e s', any s -> step s e = Some s' -> any s'.

(* The executor thread creates an actor only while another one is live, except the first. *)
Definition careful (s : st) (e : ev) : Prop := e = Create -> live s <> [] \/ fresh s = true.

Inductive reach : st -> Prop :=
| reach_init : reach init
| reach_step : forall s e s', reach s -> careful s e -> step s e = Some s' -> reach s'.
