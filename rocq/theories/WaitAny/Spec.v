(** What is promised when waiting for any of several futures returns. *)
From Coq Require Import Arith.

(** [refers i]: future i still refers to the finished waiter; [ready i]: future i is complete. *)
Definition clean (n : nat) (refers : nat -> Prop) : Prop := forall i, i < n -> ~ refers i.
Definition good_answer (n : nat) (ready : nat -> Prop) (r : option nat) : Prop :=
  match r with Some i => i < n /\ ready i | None => False end.
