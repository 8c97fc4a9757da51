(** Strings as values. *)
From Coq Require Import ZArith List.
From Verif.StringHeap Require Import Model.
Import ListNotations.
Definition values := nat -> option (list Z).
Definition upd (v : values) (x : nat) (t : option (list Z)) : values := fun y => if Nat.eqb y x then t else v y.
(** the effect of an operation on the values; None when the program uses a string that does not exist, or constructs one twice *)
Definition effect (v : values) (o : op) : option values :=
  match o with
  | New x l => match v x with None => Some (upd v x (Some l)) | _ => None end
  | NewEmpty x => match v x with None => Some (upd v x (Some [])) | _ => None end
  | Copy x y i n => match v x, v y with
      | None, Some t => if Nat.leb (i + n) (length t) then Some (upd v x (Some (firstn n (skipn i t)))) else None | _, _ => None end
  | AssignChars x l => match v x with Some _ => Some (upd v x (Some l)) | _ => None end
  | AssignString x y => match v x, v y with Some _, Some t => Some (upd v x (Some t)) | _, _ => None end
  | AssignPrefix x y n => match v x, v y with Some _, Some t => Some (upd v x (Some (firstn n t))) | _, _ => None end
  | AppendChars x l => match v x with Some s => Some (upd v x (Some (s ++ l))) | _ => None end
  | AppendString x y => match v x, v y with Some s, Some t => Some (upd v x (Some (s ++ t))) | _, _ => None end
  | Destroy x => match v x with Some _ => Some (upd v x None) | _ => None end
  end.
Fixpoint effects (v : values) (l : list op) : option values :=
  match l with [] => Some v | o :: r => match effect v o with Some v1 => effects v1 r | None => None end end.
Definition none : values := fun _ => None.
(** the operations that neither append, nor copy a proper substring, nor use the empty constructor or assign a prefix *)
Definition plain (v : values) (o : op) : Prop :=
  match o with
  | New _ _ | AssignChars _ _ | AssignString _ _ | Destroy _ => True
  | Copy x y i n => i = 0%nat /\ forall t, v y = Some t -> n = length t
  | _ => False
  end.
Fixpoint plains (v : values) (l : list op) : Prop :=
  match l with [] => True | o :: r => plain v o /\ forall v1, effect v o = Some v1 -> plains v1 r end.
(** constructing strings only: from characters, or as part of another string (not the empty part at the end of it) *)
Definition building (v : values) (o : op) : Prop :=
  match o with
  | New _ _ => True
  | Copy x y i n => forall t, v y = Some t -> (i < length t)%nat \/ t = []
  | _ => False
  end.
Fixpoint builds (v : values) (l : list op) : Prop :=
  match l with [] => True | o :: r => building v o /\ forall v1, effect v o = Some v1 -> builds v1 r end.
(** the operations whose argument is not read from the pool while the pool may move *)
Definition outside (o : op) : Prop := match o with AssignPrefix _ _ _ | AppendString _ _ => False | _ => True end.
