(** Model of the binary searches of libcfa/src/stdlib.cfa:160-207 and :219-267 (and libcfa/src/heap.cfa:117-128).
    The array is a [list E]; [vals[m]] out of bounds gives the error [OOB]; the [while] loop carries fuel
    ([Fuel] when exhausted).  Simplification: [l + h] does not wrap (both are at most [dim], the number of
    elements of an array in memory). *)
From Coq Require Import List Arith ZArith.
Import ListNotations.

Inductive res (A : Type) : Type := Ok (a : A) | OOB | Fuel.
Arguments Ok {A} a. Arguments OOB {A}. Arguments Fuel {A}.

Section Search.
  (** K, E, ?<? and getKey of the forall clauses, stdlib.cfa:160 (K = E, getKey the identity) and :219 *)
  Context {K E : Type} (lt : K -> K -> bool) (getKey : E -> K).

  (** stdlib.cfa:173-184 and :232-243 *)
  Fixpoint lower_loop (fuel : nat) (key : K) (vals : list E) (l h : nat) : res nat :=
    match fuel with
    | O => Fuel
    | S f =>
        if Nat.ltb l h then
          let m := (l + h) / 2 in
          match nth_error vals m with
          | None => OOB
          | Some v => if lt (getKey v) key then lower_loop f key vals (m + 1) h
                      else lower_loop f key vals l m
          end
        else Ok l
    end.
  Definition bsearchl (key : K) (vals : list E) (dim : nat) : res nat :=
    lower_loop (S dim) key vals 0 dim.

  (** stdlib.cfa:191-202 and :250-261 *)
  Fixpoint upper_loop (fuel : nat) (key : K) (vals : list E) (l h : nat) : res nat :=
    match fuel with
    | O => Fuel
    | S f =>
        if Nat.ltb l h then
          let m := (l + h) / 2 in
          match nth_error vals m with
          | None => OOB
          | Some v => if negb (lt key (getKey v)) then upper_loop f key vals (m + 1) h
                      else upper_loop f key vals l m
          end
        else Ok l
    end.
  Definition bsearchu (key : K) (vals : list E) (dim : nat) : res nat :=
    upper_loop (S dim) key vals 0 dim.

  (** stdlib.cfa:162-164 and :221-223: the comparison function handed to C's bsearch, (key, element). *)
  Definition cmp (key : K) (v : E) : Z :=
    if lt key (getKey v) then (-1)%Z else if lt (getKey v) key then 1%Z else 0%Z.

  (** C's bsearch is external: [cbsearch c vals] stands for bsearch(&key, vals, dim, size, cmp) with
      [c v = cmp(&key, &v)], returning the index of the element found or None for a null pointer. *)
  Context (cbsearch : (E -> Z) -> list E -> option nat).
  (** stdlib.cfa:168-171 and :227-230 (the pointer form :161-166 returns the same position or 0p) *)
  Definition bsearch (key : K) (vals : list E) (dim : nat) : nat :=
    match cbsearch (cmp key) (firstn dim vals) with
    | Some i => i
    | None => dim
    end.
End Search.

(** heap.cfa:117-128: the same loop over unsigned ints *)
Definition heap_Bsearchl (key : N) (vals : list N) (dim : nat) : res nat :=
  bsearchl N.ltb (fun v => v) key vals dim.
