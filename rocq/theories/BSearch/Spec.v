(** Strict weak orders, ascending arrays, and the C library's bsearch contract. *)
From Coq Require Import List ZArith.

Section Order.
  Context {K E : Type} (lt : K -> K -> bool) (getKey : E -> K).
  Definition strict_weak : Prop :=
    (forall x, lt x x = false) /\
    (forall x y z, lt x y = true -> lt y z = true -> lt x z = true) /\
    (forall x y z, lt x z = true -> lt x y = true \/ lt y z = true).
  Definition ascending (vals : list E) : Prop :=
    forall i j a b, i < j -> nth_error vals i = Some a -> nth_error vals j = Some b ->
      lt (getKey b) (getKey a) = false.
End Order.

(** C11 7.22.5.1: when the array is partitioned into elements comparing greater than, equal to and less than
    the key (in terms of compar(key, element) > 0, == 0, < 0, in that order), bsearch returns some element
    comparing equal, or a null pointer when there is none. *)
Definition c_bsearch_contract {E} (cb : (E -> Z) -> list E -> option nat) : Prop :=
  forall c vals,
    (forall i j a b, i < j -> nth_error vals i = Some a -> nth_error vals j = Some b ->
       (c a < 0 -> c b < 0)%Z /\ (c a = 0 -> c b <= 0)%Z) ->
    match cb c vals with
    | Some i => exists v, nth_error vals i = Some v /\ c v = 0%Z
    | None => forall v, In v vals -> c v <> 0%Z
    end.
