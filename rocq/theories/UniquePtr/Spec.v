(* What one expects of pointers that own what they point to. *)

From Coq Require Import List Bool Arith.
From Verif.CounterPtr Require Import Model.
From Verif.UniquePtr Require Import Model.
Import ListNotations.

Definition ulive (s : ustate) (o : nat) : Prop := In o (map fst (uobjs s)).

Definition root (p : place) : bool := match p with Field _ _ => false | _ => true end.

(* One gets at object o from a variable, without going through the pointer h. *)
Inductive reach (h : option place) (l : list (place * option nat)) : nat -> Prop :=
  | reach_root : forall p o, root p = true -> h <> Some p -> In (p, Some o) l -> reach h l o
  | reach_field : forall o f o1, reach h l o -> h <> Some (Field o f) -> In (Field o f, Some o1) l -> reach h l o1.

(* A pointer the program can name, without going through the pointer h. *)
Definition unamed (h : option place) (s : ustate) (p : place) : Prop :=
  match p with
  | Var x => In (Var x) (map fst (uptrs s))
  | Field o f => reach h (uptrs s) o /\ In (Field o f) (map fst (uptrs s))
  | Tmp => False
  end.

Definition ufresh (s : ustate) (x : nat) : Prop := ~ In (Var x) (map fst (uptrs s)).

(* For move(p, q): q does not lie in what p owns. *)
Definition ufine (s : ustate) (o : uop) : Prop :=
  match o with
  | UNull x | UNew x _ => ufresh s x
  | UDrop x => unamed None s (Var x)
  | UMove p q => unamed None s p /\ unamed (Some p) s q
  | UAssignNull p => unamed None s p
  | URelease x p => ufresh s x /\ unamed None s p
  end.

Inductive urun : list uop -> ustate -> Prop :=
  | urun_nil : urun [] ustart
  | urun_snoc : forall l s o s1, urun l s -> ufine s o -> ustep s o = UOk s1 -> urun (l ++ [o]) s1.

Definition uacyclic (s : ustate) : Prop :=
  exists rank : nat -> nat, forall o f o1, In (Field o f, Some o1) (uptrs s) -> rank o1 < rank o.

(* What a step writes: pointers and their new values; None: the pointer ends. *)
Definition uwrites (s : ustate) (o : uop) : list (place * option (option nat)) :=
  match o with
  | UNull x => [(Var x, Some None)]
  | UNew x _ => [(Var x, Some (Some (unext s)))]
  | UDrop x => [(Var x, None)]
  | UMove p q => [(p, lookup q (uptrs s)); (q, Some None)]
  | UAssignNull p => [(p, Some None)]
  | URelease x p => [(Var x, lookup p (uptrs s)); (p, Some None)]
  end.
