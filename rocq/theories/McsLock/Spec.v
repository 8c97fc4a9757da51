(** What a queue lock promises. *)
From Coq Require Import List Bool.
Import ListNotations.
Definition exclusive (holds : nat -> bool) : Prop := forall t u, holds t = true -> holds u = true -> t = u.
(** Threads enter in arrival order: those entered are a first part of those arrived. *)
Definition in_order (entered arrived : list nat) : Prop := exists waiting, arrived = entered ++ waiting.
