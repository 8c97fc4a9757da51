(** The smallest of a list of sizes that can hold [n] bytes, stated without reference to tables or searches. *)
From Coq Require Import List ZArith.
Local Open Scope Z_scope.

Definition least_class (sizes : list Z) (n : Z) (k : nat) : Prop :=
  (exists s, nth_error sizes k = Some s /\ n <= s) /\
  forall j s, (j < k)%nat -> nth_error sizes j = Some s -> s < n.

(** the largest size not above [n] *)
Definition greatest_below (sizes : list Z) (n : Z) (k : nat) : Prop :=
  (exists s, nth_error sizes k = Some s /\ s <= n) /\
  forall j s, (k < j)%nat -> nth_error sizes j = Some s -> n < s.
