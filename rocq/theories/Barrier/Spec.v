(** Specification: arrivals form consecutive groups of n; the last arrival of a group releases the whole group, the
    i-th arrival (from 0) of the group returning n-1-i. *)
From Coq Require Import ZArith List Arith.
Import ListNotations.
Definition released (n : nat) (ts : list nat) (k : nat) : list (nat * Z) :=
  if Nat.eqb ((k + 1) mod n) 0 then
    map (fun i => (nth (k + 1 - n + i) ts 0%nat, Z.of_nat (n - 1 - i))) (seq 0 n)
  else [].
