(** What a lock with a waiting queue promises. *)
From Coq Require Import List Bool.
Import ListNotations.
Definition exclusive (holds : nat -> bool) : Prop := forall t u, holds t = true -> holds u = true -> t = u.
Definition fifo (arrived granted queued : list nat) : Prop := arrived = granted ++ queued.
