(** Reversible steps: a permutation of a set of states. *)
From Coq Require Import ZArith.
From Verif.Prng Require Import Model.
Local Open Scope Z_scope.

Definition permutes {A} (P : A -> Prop) (f : A -> A) : Prop :=
  exists g, forall x, P x -> P (f x) /\ P (g x) /\ g (f x) = x /\ f (g x) = x.
(** the unsigned integers of [w] bits *)
Definition uint (w x : Z) : Prop := 0 <= x < 2 ^ w.
Definition uint4 (w : Z) (q : quad) : Prop := uint w (q0 q) /\ uint w (q1 q) /\ uint w (q2 q) /\ uint w (q3 q).
Definition uint5 (r : wow) : Prop := uint 32 (wa r) /\ uint 32 (wb r) /\ uint 32 (wc r) /\ uint 32 (wd r) /\ uint 32 (counter r).
(** the [n]-fold step *)
Fixpoint after {A} (f : A -> A) (n : nat) (x : A) : A := match n with O => x | S n => f (after f n x) end.
