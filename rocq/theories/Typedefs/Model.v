(** Kinds of names in the parser: src/Parser/TypedefTable.cpp:58-128 with the scopes of the grammar, src/Parser/parser.yy:1254-1257 (blocks), 2151-2163 (typedefs), 2598-2601 (aggregates),
    3293-3297 (external definitions), 3300-3306 and 3373 (distribution blocks). Names and kinds are numbers; the scopes are a list with the current one first; the map of a scope is an association
    list with the latest entry first. Simplifications: type parameters (addToScope) and declarators that make a name an identifier again are left out, and the token after a construct is taken to be read after the actions of the construct. None: an index out of range or a failed assertion. *)
From Coq Require Import List Bool Arith.
Import ListNotations.
Notation env := (list (nat * nat)).
(** the note: level and forall (TypedefTable.hpp:23-26) *)
Notation scope := (env * (nat * bool))%type.
Record st := St { scopes : list scope; level : nat; log : list nat }.
Definition identifier := 0. Definition typedefname := 1. Definition typegenname := 2.
Definition init : st := St [([], (0, false))] 0 [].
Fixpoint look (n : nat) (m : env) : option nat := match m with [] => None | (x, k) :: m => if n =? x then Some k else look n m end.
(** ScopedMap::find, ScopedMap.hpp:108-116 *)
Fixpoint find (n : nat) (l : list scope) : option nat := match l with [] => None | (m, _) :: l => match look n m with Some k => Some k | None => find n l end end.
(** exists, 58-60; isKind, 66-71 *)
Definition exists_ (n : nat) (s : st) : bool := match find n (scopes s) with Some _ => true | None => false end.
Definition is_kind (n : nat) (s : st) : nat := match find n (scopes s) with Some k => k | None => identifier end.
(** insertAt and the update, at the i-th scope from the current one *)
Fixpoint put (i : nat) (n k : nat) (l : list scope) : option (list scope) :=
  match l, i with
  | [], _ => None
  | (m, t) :: l, O => Some (((n, k) :: m, t) :: l)
  | h :: l, S i => option_map (cons h) (put i n k l)
  end.
(** addToEnclosingScope, 101-107 *)
Definition add_enclosing (n k : nat) (s : st) : option st :=
  match scopes s with
  | _ :: (_, (lv, _)) :: _ => option_map (fun l => St l (level s) (log s)) (put (S lv) n k (scopes s))
  | _ => None
  end.
(** makeTypedef, 76-88 *)
Definition make_typedef (n k : nat) (s : st) : option st := if exists_ n s then Some s else add_enclosing n k s.
(** getEnclForall, TypedefTable.hpp:40 *)
Definition encl_forall (s : st) : option bool := match scopes s with _ :: (_, (_, f)) :: _ => Some f | _ => None end.
(** enterScope, 109-112; leaveScope, 114-117 *)
Definition enter (s : st) : st := St (([], (0, false)) :: scopes s) (level s) (log s).
Definition leave (s : st) : option st := match scopes s with _ :: h :: l => Some (St (h :: l) (level s) (log s)) | _ => None end.
(** up, 119-123; down, 125-128 *)
Definition up (forall_ : bool) (s : st) : option st :=
  match encl_forall s, scopes s with
  | Some f, (m, _) :: l => Some (St ((m, (S (level s), forall_ || f)) :: l) (S (level s)) (log s))
  | _, _ => None
  end.
Definition down (s : st) : st := St (scopes s) (pred (level s)) (log s).
Definition bind {A B} (o : option A) (f : A -> option B) : option B := match o with Some a => f a | None => None end.
(** programs: a use of a name is recorded by its kind; an aggregate with or without a forall of its own *)
Inductive loc := Luse (n : nat) | Ltypedef (n : nat) | Lagg (n : nat) (f : bool) | Lblock (l : list loc).
Inductive ext := Use (n : nat) | Typedef (n : nat) | Agg (n : nat) (f : bool) | Dist (f : bool) (l : list ext) | Func (l : list loc).
Definition use (n : nat) (s : st) : st := St (scopes s) (level s) (log s ++ [is_kind n s]).
Definition agg (n : nat) (f : bool) (s : st) : option st := bind (encl_forall s) (fun g => make_typedef n (if f || g then typegenname else typedefname) s).
Fixpoint run_loc (i : loc) (s : st) : option st :=
  match i with
  | Luse n => Some (use n s)
  | Ltypedef n => add_enclosing n typedefname s
  | Lagg n f => agg n f s
  | Lblock l => bind ((fix go (l : list loc) (s : st) : option st := match l with [] => Some s | i :: l => bind (run_loc i s) (go l) end) l (enter s)) leave
  end.
Definition run_locs : list loc -> st -> option st := fix go (l : list loc) (s : st) : option st := match l with [] => Some s | i :: l => bind (run_loc i s) (go l) end.
Fixpoint run (i : ext) (s : st) : option st :=
  match i with
  | Use n => leave (use n (enter s))
  | Typedef n => bind (add_enclosing n typedefname (enter s)) leave
  | Agg n f => bind (agg n f (enter s)) leave
  | Dist f l => bind (bind (up f (enter s)) ((fix go (l : list ext) (s : st) : option st := match l with [] => Some s | i :: l => bind (run i s) (go l) end) l)) (fun s => leave (down s))
  | Func l => bind (run_loc (Lblock l) (enter s)) leave
  end.
Definition runs : list ext -> st -> option st := fix go (l : list ext) (s : st) : option st := match l with [] => Some s | i :: l => bind (run i s) (go l) end.
