From Coq Require Import List Bool.
From Verif.Pair Require Import Model.

(** the six operators of a total order [L] (its "less or equal") *)
Record total {T} (o : ops T) (L : T -> T -> Prop) : Prop := Total {
  t_refl : forall x, L x x;
  t_anti : forall x y, L x y -> L y x -> x = y;
  t_trans : forall x y z, L x y -> L y z -> L x z;
  t_total : forall x y, L x y \/ L y x;
  t_eq : forall x y, eq o x y = true <-> x = y;
  t_ne : forall x y, ne o x y = true <-> x <> y;
  t_lt : forall x y, lt o x y = true <-> ~ L y x;
  t_le : forall x y, le o x y = true <-> L x y;
  t_gt : forall x y, gt o x y = true <-> ~ L x y;
  t_ge : forall x y, ge o x y = true <-> L y x }.
Definition lex {R S} (LR : R -> R -> Prop) (LS : S -> S -> Prop) (p q : R * S) : Prop :=
  (LR (fst p) (fst q) /\ fst p <> fst q) \/ (fst p = fst q /\ LS (snd p) (snd q)).

(** a strict weak order *)
Record weak {T} (ltb : T -> T -> bool) : Prop := Weak {
  w_irr : forall x, ltb x x = false;
  w_trans : forall x y z, ltb x y = true -> ltb y z = true -> ltb x z = true;
  w_neg : forall x y z, ltb x z = true -> ltb x y = true \/ ltb y z = true }.

(** the abstract values: an option, and a sum *)
Inductive mop (T : Type) := MSet (v : T) | MSetNone | MAssign (o : option T).
Arguments MSet {T} v. Arguments MSetNone {T}. Arguments MAssign {T} o.
Definition mnext {T} (o : mop T) (c : option T) : option T :=
  match o with MSet v => Some v | MSetNone => None | MAssign x => x end.
Inductive rop (T E : Type) := RSet (v : T) | RSetError (e : E) | RAssign (o : T + E).
Arguments RSet {T E} v. Arguments RSetError {T E} e. Arguments RAssign {T E} o.
Definition rnext {T E} (o : rop T E) (c : T + E) : T + E :=
  match o with RSet v => inl v | RSetError e => inr e | RAssign x => x end.
(** an object in its abstract state *)
Definition mobj {T} (c : option T) : maybe T := match c with Some v => Mb true (Some v) | None => Mb false None end.
Definition robj {T E} (c : T + E) : rslt T E := match c with inl v => Rs true (Some (inl v)) | inr e => Rs false (Some (inr e)) end.
