(** C07: small-array sort. *)
From Coq Require Import ZArith List Sorting.Permutation Sorting.Sorted.
From Verif.SmallSort Require Import Model Proofs.
Import ListNotations.
Open Scope Z_scope.

(** For every array, sorting it with its own length performs no out-of-bounds access and leaves the same
    elements in ascending order. *)
Theorem C07_sorted_permutation : forall arr,
  exists o, small_sort (length arr) arr = Some o /\ Permutation arr o /\ Sorted Z.le o.
Proof. exact small_sort_correct. Qed.
Print Assumptions C07_sorted_permutation.

Example C07_example : small_sort 6 [5; 3; 5; -1; 9; 0] = Some [-1; 0; 3; 5; 5; 9]
  /\ small_sort 8 [5; 3; 5; -1; 9; 0; 4; 2] = Some [-1; 0; 2; 3; 4; 5; 5; 9].
Proof. split; reflexivity. Qed.
