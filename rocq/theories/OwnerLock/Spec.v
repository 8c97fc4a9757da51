(** Mutual exclusion with first-come-first-served hand-off, in terms of what each thread counts it holds. *)
From Coq Require Import List Arith.
Import ListNotations.

Definition exclusive (held : nat -> nat) : Prop := forall t u, 0 < held t -> 0 < held u -> t = u.
(** [arrived] queued for the lock in this order, [granted] were handed it, [queued] still wait. *)
Definition fifo (arrived granted queued : list nat) : Prop := arrived = granted ++ queued.
