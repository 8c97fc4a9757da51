(** What the tables should say, in terms of paths through the graph of direct conversions. *)
From Coq Require Import List Bool Arith ZArith.
From Verif.BasicTypes Require Import Model.
Import ListNotations.
Open Scope Z_scope.
Definition wf (g : graph) : Prop := forall a k, In k (kids (at_ g a)) -> (k < length g)%nat.
(** a path, with its length and its number of sign changes *)
Inductive path (g : graph) (a : nat) : nat -> Z * Z -> Prop :=
  | path_nil : path g a a (0, 0)
  | path_snoc b w k : path g a b w -> In k (kids (at_ g b)) -> path g a k (plus w (edge g b k)).
(** shorter first, then fewer sign changes *)
Definition noworse (x y : Z * Z) : Prop := fst x < fst y \/ fst x = fst y /\ snd x <= snd y.
Definition best (g : graph) (a b : nat) (w : Z * Z) : Prop := path g a b w /\ forall v, path g a b v -> noworse w v.
(** a safe conversion *)
Definition safe (a b : nat) : Prop := 0 <= costOf a b.
Definition kind (a : nat) : Prop := (a < kinds)%nat.
(** all the states the loop can get to *)
Inductive turns (g : graph) : nat -> state -> state -> Prop :=
  | turns_0 s : turns g 0 s s
  | turns_S n s t u : turn g s t -> turns g n t u -> turns g (S n) s u.
(** the common type of a list of operands, taken two at a time *)
Definition commonAll (a : nat) (l : list nat) : nat := fold_left commonOf l a.
