(** Costs as vectors of eight integers, most significant first, compared lexicographically. *)
From Coq Require Import ZArith List.
From Verif.Cost Require Import Model.
Import ListNotations.
Open Scope Z_scope.

Definition cost (c : Z) : Prop := 0 <= c < 2 ^ 64.
(** The observable components, in priority order (the getters of the class). *)
Definition vec (c : Z) : list Z :=
  [get_unsafe c; get_implicit c; get_poly c; get_safe c; get_sign c; get_var c; get_spec c; get_reference c].
Fixpoint lex (a b : list Z) : Prop :=
  match a, b with
  | x :: a', y :: b' => x < y \/ (x = y /\ lex a' b')
  | _, _ => False
  end.
Definition vadd (a b : list Z) : list Z := map (fun p => fst p + snd p) (combine a b).
(** Component ranges: seven counters in 0..255 and a specialisation credit in -255..0. *)
Definition vlo : list Z := [0; 0; 0; 0; 0; 0; -255; 0].
Definition vhi : list Z := [255; 255; 255; 255; 255; 255; 0; 255].
Definition in_range (a : list Z) : Prop := Forall2 Z.le vlo a /\ Forall2 Z.le a vhi.
Definition finite (c : Z) : Prop := cost c /\ c <> infinity.
