(** A growable sequence of values. *)
From Coq Require Import ZArith List.
Import ListNotations.
Inductive op := Push (x : Z) | Pop | Reserve (n : Z) | At (i : nat) | Set_ (i : nat) (x : Z) | Front | Back | Size | IsEmpty.
Inductive res := RVal (x : Z) | RNum (n : Z) | RBool (b : bool) | RVoid.
Fixpoint put {A} (xs : list A) (i : nat) (x : A) : list A := match xs, i with [], _ => [] | _ :: r, 0 => x :: r | a :: r, S j => a :: put r j x end.
Inductive spec (xs : list Z) : op -> list Z -> res -> Prop :=
| s_push x : spec xs (Push x) (xs ++ [x]) RVoid
| s_pop ys x : xs = ys ++ [x] -> spec xs Pop ys RVoid
| s_res n : spec xs (Reserve n) xs RVoid
| s_at i x : nth_error xs i = Some x -> spec xs (At i) xs (RVal x)
| s_set i x : i < length xs -> spec xs (Set_ i x) (put xs i x) RVoid
| s_front x r : xs = x :: r -> spec xs Front xs (RVal x)
| s_back ys x : xs = ys ++ [x] -> spec xs Back xs (RVal x)
| s_size : spec xs Size xs (RNum (Z.of_nat (length xs)))
| s_empty : spec xs IsEmpty xs (RBool (match xs with [] => true | _ => false end)).
Inductive runs : list Z -> list op -> list Z -> list res -> Prop :=
| runs_nil xs : runs xs [] xs []
| runs_cons xs o ys r os zs rs : spec xs o ys r -> runs ys os zs rs -> runs xs (o :: os) zs (r :: rs).
