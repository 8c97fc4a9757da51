(** Specification vocabulary for rationals: canonical form, and the exact value in Coq's [Q]. *)
From Coq Require Import ZArith QArith List.
From Verif.Rational Require Import Model.
Open Scope Z_scope.

Definition canonical (r : rational) : Prop := 0 < den r /\ Z.gcd (num r) (den r) = 1.
(** The number denoted by a rational with positive denominator. *)
Definition value (r : rational) : Q := Qmake (num r) (Z.to_pos (den r)).
