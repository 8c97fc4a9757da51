(** What a sleeping lock promises. *)
From Coq Require Import List Bool.
Import ListNotations.
Definition exclusive (holds : nat -> bool) : Prop := forall t u, holds t = true -> holds u = true -> t = u.
(** No lost wake-up: while somebody sleeps, either the lock word says that the next unlock must wake, or some thread is on
    its way to set that mark or to wake a sleeper. *)
Definition no_lost_wakeup (sleepers : list nat) (marked : bool) (on_its_way : nat -> bool) : Prop :=
  sleepers <> [] -> marked = true \/ exists t, on_its_way t = true.
