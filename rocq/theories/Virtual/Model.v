(** Virtual casts: libcfa/src/virtual.c:21-38, and the table of type ids of the translator, src/Virtual/ExpandCasts.cpp:63-90. Memory is given by the first word at each address; 0 is the null pointer.
    The first field of an object is the pointer to its virtual table, the first of a table the pointer to its type id, the first of a type id the pointer to the parent's (virtual.h:22-28;
    the cast generated passes the object as pointer to pointer to type id, ExpandCasts.cpp:241-252, so that the walk starts at the virtual table). Names are numbers. *)
From Coq Require Import List Bool Arith.
Import ListNotations.
(** an assertion fails; the loop needs more steps than given *)
Inductive res (A : Type) := Ok (a : A) | Fails | More.
Arguments Ok {A}. Arguments Fails {A}. Arguments More {A}.
(** the loop of __cfavir_is_parent, 25-30 *)
Fixpoint walk (fuel : nat) (w : nat -> nat) (parent child : nat) : res bool :=
  match fuel with
  | O => More
  | S fuel => if parent =? child then Ok true else let child := w child in if child =? 0 then Ok false else walk fuel w parent child
  end.
(** __cfavir_is_parent, 21-31 *)
Definition is_parent (fuel : nat) (w : nat -> nat) (parent child : nat) : res bool := if child =? 0 then Fails else walk fuel w parent child.
(** __cfavir_virtual_cast, 33-38 *)
Definition virtual_cast (fuel : nat) (w : nat -> nat) (parent child : nat) : res nat :=
  if child =? 0 then Fails else
  match is_parent fuel w parent (w child) with Ok true => Ok child | Ok false => Ok 0 | Fails => Fails | More => More end.
(** TypeIdTable: a declaration is a number and whether it is extern. insert, 71-83, gives the earlier definition in conflict; lookup, 85-89. One scope: no pass enters another *)
Definition decl := (nat * bool)%type.
Definition table := list (nat * decl).
Fixpoint lookup (k : nat) (t : table) : option decl := match t with [] => None | (x, d) :: t => if k =? x then Some d else lookup k t end.
Fixpoint set (k : nat) (d : decl) (t : table) : table := match t with [] => [(k, d)] | (x, e) :: t => if k =? x then (x, d) :: t else (x, e) :: set k d t end.
Definition insert (k : nat) (d : decl) (t : table) : option decl * table :=
  match lookup k t with
  | None => (None, set k d t)
  | Some v => if snd d then (None, t) else if negb (snd v) then (Some v, t) else (None, set k d t)
  end.
Fixpoint inserts (l : list (nat * decl)) (t : table) : table := match l with [] => t | (k, d) :: l => inserts l (snd (insert k d t)) end.
