(** Independent specification: bits are [Z.testbit] at positions 0..w-1. *)
From Coq Require Import ZArith List.
Open Scope Z_scope.

Definition word (w n : Z) : Prop := 0 <= n < 2 ^ w.
Definition sword (w n : Z) : Prop := - 2 ^ (w - 1) <= n < 2 ^ (w - 1).
(** number of positions 0..w-1 whose bit is b *)
Definition count_bits (b : bool) (w n : Z) : nat :=
  length (filter (fun i => Bool.eqb (Z.testbit n (Z.of_nat i)) b) (seq 0 (Z.to_nat w))).
(** k (numbered from 1) is the lowest / highest position whose bit is b; 0 when there is none *)
Definition lowest (b : bool) (w n k : Z) : Prop :=
  (k = 0 /\ forall i, 0 <= i < w -> Z.testbit n i = negb b) \/
  (1 <= k <= w /\ Z.testbit n (k - 1) = b /\ forall i, 0 <= i < k - 1 -> Z.testbit n i = negb b).
Definition highest (b : bool) (w n k : Z) : Prop :=
  (k = 0 /\ forall i, 0 <= i < w -> Z.testbit n i = negb b) \/
  (1 <= k <= w /\ Z.testbit n (k - 1) = b /\ forall i, k <= i < w -> Z.testbit n i = negb b).
Definition pow2 (n : Z) : Prop := exists k, 0 <= k /\ n = 2 ^ k.
(** r is the greatest multiple of a not above n / the least multiple not below n *)
Definition round_down (n a r : Z) : Prop := (a | r) /\ r <= n < r + a.
Definition round_up (n a r : Z) : Prop := (a | r) /\ r - a < n <= r.
