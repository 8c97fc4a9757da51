(* What a mutex promises, in terms of how often each thread has locked it. *)

From Coq Require Import List Arith.
From Verif.PthreadMutex Require Import Model.

(* No two threads hold the mutex. *)
Definition exclusive (s : state) : Prop :=
  forall t u, 0 < held s t -> 0 < held s u -> t = u.

Definition holds (s : state) (t : nat) : Prop := 0 < held s t.
Definition free (s : state) : Prop := forall t, held s t = 0.
Definition waiting (s : state) (t : nat) : Prop := exists b, pcs s t = Wait b.
