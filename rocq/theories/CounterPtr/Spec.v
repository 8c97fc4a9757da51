(* What one expects of reference counted pointers. *)

From Coq Require Import List Bool Arith ZArith.
From Verif.CounterPtr Require Import Model.
Import ListNotations.

Definition live (s : state) (o : nat) : Prop := In o (map fst (objs s)).

(* The number of pointers to o. *)
Definition targets (o : nat) (v : option nat) : bool := match v with Some x => Nat.eqb x o | None => false end.
Definition cnt (l : list (place * option nat)) (o : nat) : nat :=
  length (filter (fun e => targets o (snd e)) l).

Definition is_field (p : place) : bool := match p with Field _ _ => true | _ => false end.

(* The program can get at o: a variable points to it, or a field of an object it
   can get at. *)
Inductive held (s : state) : nat -> Prop :=
  | held_root : forall p o, is_field p = false -> In (p, Some o) (ptrs s) -> held s o
  | held_field : forall o f o1, held s o -> In (Field o f, Some o1) (ptrs s) -> held s o1.

(* A pointer the program can name. *)
Definition named (s : state) (p : place) : Prop :=
  match p with
  | Var x => In (Var x) (map fst (ptrs s))
  | Field o f => held s o /\ In (Field o f) (map fst (ptrs s))
  | Tmp => False
  end.

Definition fresh (s : state) (x : nat) : Prop := ~ In (Var x) (map fst (ptrs s)).

Definition fine (s : state) (o : op) : Prop :=
  match o with
  | ONull x | ONew x _ => fresh s x
  | OCopy x q => fresh s x /\ named s q
  | ODrop x => named s (Var x)
  | OAssign p q => named s p /\ named s q
  | OAssignNull p => named s p
  end.

(* Fewer pointers than an unsigned int counts. *)
Definition small (s : state) : Prop := (Z.of_nat (length (ptrs s)) + 2 < 4294967296)%Z.

Inductive frun : list op -> state -> Prop :=
  | frun_nil : frun [] start
  | frun_snoc : forall l s o s1, frun l s -> fine s o -> step s o = Ok s1 -> small s1 -> frun (l ++ [o]) s1.

(* No object is part of a cycle of pointers. *)
Definition acyclic (s : state) : Prop :=
  exists rank : nat -> nat, forall o f o1, In (Field o f, Some o1) (ptrs s) -> rank o1 < rank o.

(* The pointer an operation writes, and the value it gives it; None: the pointer
   ends. *)
Definition written (s : state) (o : op) : place :=
  match o with ONull x | ONew x _ | OCopy x _ | ODrop x => Var x | OAssign p _ | OAssignNull p => p end.
Definition value (s : state) (o : op) : option (option nat) :=
  match o with
  | ONull _ | OAssignNull _ => Some None
  | ONew _ _ => Some (Some (next s))
  | OCopy _ q | OAssign _ q => lookup q (ptrs s)
  | ODrop _ => None
  end.
