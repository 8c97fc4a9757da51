(** What the string operations mean, without reference to the code. *)
From Coq Require Import ZArith List.
Import ListNotations.
Open Scope Z_scope.
(** key starts at position i of s *)
Definition occurs (s key : list Z) (i : nat) : Prop := exists a b, s = a ++ key ++ b /\ length a = i.
(** r is the least position at or after p where key starts, or the length of s when there is none *)
Definition least_from (s key : list Z) (p : nat) (r : Z) : Prop :=
  (exists i, r = Z.of_nat i /\ (p <= i)%nat /\ occurs s key i /\ forall j, (p <= j < i)%nat -> ~ occurs s key j) \/
  (r = Z.of_nat (length s) /\ forall j, (p <= j)%nat -> ~ occurs s key j).
(** the dictionary order *)
Inductive before : list Z -> list Z -> Prop :=
  | before_nil : forall y b, before [] (y :: b)
  | before_lt : forall x y a b, x < y -> before (x :: a) (y :: b)
  | before_eq : forall x a b, before a b -> before (x :: a) (x :: b).
(** r is the length of the longest prefix of s all of whose characters satisfy P *)
Definition longest_prefix (P : Z -> Prop) (s : list Z) (r : nat) : Prop :=
  exists a b, s = a ++ b /\ length a = r /\ Forall P a /\ match b with [] => True | c :: _ => ~ P c end.
(** every occurrence of from, taken from the left without overlap, becomes to *)
Inductive replaced (from to : list Z) : list Z -> list Z -> Prop :=
  | rep_none : forall s, (forall i, ~ occurs s from i) -> replaced from to s s
  | rep_some : forall a b r, (forall j, (j < length a)%nat -> ~ occurs (a ++ from ++ b) from j) ->
      replaced from to b r -> replaced from to (a ++ from ++ b) (a ++ to ++ r).
(** the characters at positions lo, lo+1, ..., below hi *)
Definition between (s t : list Z) (lo hi : Z) : Prop :=
  exists a b, s = a ++ t ++ b /\ Z.of_nat (length a) = lo /\ Z.of_nat (length a + length t) = hi.
