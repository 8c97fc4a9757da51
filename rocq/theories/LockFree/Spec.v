(** Sequential stack and queue, as the users of the lock-free collections see them. *)
From Coq Require Import List.
Import ListNotations.
Inductive ev := EPush (n : nat) | EPop (r : option nat).
(** [runs l st]: the operations [l] (oldest first), started on the empty stack, give the results recorded in [l] and leave [st]. *)
Inductive runs : list ev -> list nat -> Prop :=
| rn : runs [] []
| rpush l st n : runs l st -> runs (l ++ [EPush n]) (n :: st)
| rpop l n st : runs l (n :: st) -> runs (l ++ [EPop (Some n)]) st
| rempty l : runs l [] -> runs (l ++ [EPop None]) [].
(** Elements leave in the order they arrived, each once. *)
Definition fifo (arrived left_ : list nat) : Prop := exists inside, arrived = left_ ++ inside.
