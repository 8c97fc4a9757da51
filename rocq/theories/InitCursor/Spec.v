(** What C initializes (C11 6.7.9): positions are paths of member and element numbers in the object of the list. *)
From Coq Require Import List Bool Arith.
From Verif.InitCursor Require Import Model.
Import ListNotations.
Fixpoint type_at (t : ty) (p : path) : option ty :=
  match p with
  | [] => Some t
  | i :: r => match t with Scal _ => None | Arr n b => if i <? n then type_at b r else None | Agg _ _ ms => match nth_error ms i with Some t => type_at t r | None => None end end
  end.
(** the subobject after p: the next member or element of the innermost structure or array around p that has one; only one member of a union *)
Fixpoint succ (t : ty) (p : path) : option path :=
  match p with
  | [] => None
  | i :: r =>
      match t with
      | Scal _ => None
      | Arr n b => match succ b r with Some q => Some (i :: q) | None => if S i <? n then Some [S i] else None end
      | Agg u _ ms => match nth_error ms i with None => None | Some m => match succ m r with Some q => Some (i :: q) | None => if negb u && (S i <? length ms) then Some [S i] else None end end
      end
  end.
(** an expression initializes the first of: the subobject, its first member, the first member of that ... that it is an expression for (p13, p20) *)
Fixpoint place (e : expr) (t : ty) : option path :=
  if matches e t then Some [] else
  match t with Scal _ => None | Arr _ b => option_map (cons 0) (place e b) | Agg _ _ ms => match ms with [] => None | m :: _ => option_map (cons 0) (place e m) end end.
Definition start (t : ty) : path := match t with Scal _ => [] | _ => [0] end.
(** an initializer for the subobject p of t: the position after it, what is initialized *)
Definition spec_items (f : init -> ty -> path -> option (option path * log)) : list (path * init) -> ty -> option path -> option (list log) :=
  fix go items t pos := match items with
  | [] => Some []
  | (d, i) :: r =>
      match (match d with [] => pos | _ => match type_at t d with Some _ => Some d | None => None end end) with
      | None => None
      | Some p => match f i t p with None => None | Some (nxt, l) => match go r t nxt with None => None | Some ls => Some (l :: ls) end end
      end
  end.
Fixpoint spec (i : init) (t : ty) (p : path) : option (option path * log) :=
  match type_at t p with
  | None => None
  | Some tp =>
      match i with
      | Single e => match place e tp with None => None | Some z => match type_at tp z with None => None | Some tz => Some (succ t (p ++ z), LS (p ++ z) tz) end end
      | Lst items => match spec_items spec items tp (Some (start tp)) with None => None | Some ls => Some (succ t p, LL tp ls) end
      end
  end.
Definition spec_object (i : init) (t : ty) : option log :=
  match i with Single e => if matches e t then Some (LS [] t) else None | Lst _ => option_map snd (spec i t []) end.
(** Types: arrays have elements, structures and unions have members, which are of types declared before *)
Definition older (i : nat) : ty -> bool := fix f t := match t with Scal _ => true | Arr _ b => f b | Agg _ j _ => j <? i end.
Fixpoint wf (t : ty) : bool :=
  match t with Scal _ => true | Arr n b => (0 <? n) && wf b | Agg _ i ms => negb (match ms with [] => true | _ => false end) && forallb (fun m => wf m && older i m) ms end.
(** The initializers that the cursor follows: no braces for a subobject of a member that has been begun; after an expression of structure type with more than one element a designator; designators of elements only before the end of the array, at the start of an element or with a member of a structure after them. Some lost: lost = true: the cursor is elsewhere *)
Fixpoint leaf (t : ty) : path := match t with Scal _ => [] | Arr _ b => 0 :: leaf b | Agg _ _ ms => match ms with [] => [] | m :: _ => 0 :: leaf m end end.
Definition same (a b : option path) : bool := match a, b with Some a, Some b => if list_eq_dec Nat.eq_dec a b then true else false | None, None => true | _, _ => false end.
Definition short (p : path) : bool := match p with [] | [_] => true | _ => false end.
Definition is_agg (t : ty) : bool := match t with Agg _ _ _ => true | _ => false end.
Definition ok_desig (d : path) (t : ty) (pos : option path) (lost : bool) : bool :=
  match d with
  | [] => negb lost
  | _ :: r => match t with Agg _ _ _ => true | Scal _ => false | Arr _ b => negb lost && match pos with Some p => short p || (is_agg b && negb (match r with [] => true | _ => false end)) | None => false end end
  end.
Definition fine_items (g : init -> ty -> path -> option bool) : list (path * init) -> ty -> option path -> bool -> bool :=
  fix go items t pos lost := match items with
  | [] => true
  | (d, i) :: r =>
      ok_desig d t pos lost &&
      match (match d with [] => pos | _ => Some d end) with
      | None => false
      | Some p => match g i t p, spec i t p with Some lost', Some (nxt, _) => go r t nxt lost' | _, _ => false end
      end
  end.
Fixpoint fine (i : init) (t : ty) (p : path) : option bool :=
  match type_at t p with
  | None => None
  | Some tp =>
      match i with
      | Single e => match place e tp with None => None | Some z => match type_at tp z with None => None | Some tz => Some (negb (same (succ t (p ++ z ++ leaf tz)) (succ t (p ++ z)))) end end
      | Lst items => if short p && fine_items fine items tp (Some (start tp)) false then Some false else None
      end
  end.
Definition fine_object (i : init) (t : ty) : bool := match i with Single _ => true | Lst _ => match fine i t [] with Some _ => true | None => false end end.
