(** What a blocking lock promises. *)
From Coq Require Import List Bool.
Import ListNotations.
Definition exclusive (holds : nat -> bool) : Prop := forall t u, holds t = true -> holds u = true -> t = u.
Definition fifo (arrived granted queued : list nat) : Prop := arrived = granted ++ queued.
(** A queued thread is never left behind by a free lock. *)
Definition no_stranded (held : bool) (queued : list nat) : Prop := held = false -> queued = [].
