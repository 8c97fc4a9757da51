(** What a scoped table should do, without laziness: one table for every open scope *)
From Coq Require Import List Bool Arith.
From Verif.SymTab Require Import Model.
Import ListNotations.
Section S.
Variable ign : bool.
Variable compat : nat -> nat -> bool.
(** innermost first *)
Definition sstep (o : op) (stk : list tabs) : option (list tabs) :=
  match o, stk with
  | _, [] => None
  | Enter, t :: r => Some (t :: t :: r)
  | Leave, _ :: [] => None
  | Leave, _ :: r => Some r
  | _, t :: r => match change ign compat o t (length r) with Same => Some stk | Bad => None | Upd t' => Some (t' :: r) end
  end.
Fixpoint srun (l : list op) (stk : list tabs) : option (list tabs) := match l with [] => Some stk | o :: r => match sstep o stk with Some s => srun r s | None => None end end.
End S.
(** scopes entered are left, and none else *)
Fixpoint balanced (n : nat) (l : list op) : Prop :=
  match l with
  | [] => n = 0
  | Enter :: r => balanced (S n) r
  | Leave :: r => match n with 0 => False | S k => balanced k r end
  | _ :: r => balanced n r
  end.
(** Special functions. Which of the functions declared for one type can be called: those defined by the user; a generated copy function unless the user defined a copy function; another generated function unless the user defined any *)
Definition exact (d : decl) : nat := match d_spec d with Some (_, _, e) => e | None => 0 end.
Definition callable (l : list decl) (d : decl) : Prop :=
  In d l /\ (d_over d = false \/ (if d_copy d then forall u, In u l -> d_over u = false -> exact u = exact d -> d_copy u = false else forall u, In u l -> d_over u = false -> exact u <> exact d)).
(** the functions found by a lookup, without the deleted ones *)
Definition available (t : tabs) (k : key) (d : decl) : Prop := exists x, In x (map snd (ids t k)) /\ who x = d /\ deleter x = None.
(** the functions declared for one type, kind and key: functions of Cforall, none of them intrinsic; the mangled name determines the type and so whether it is a copy function; no two of the user, and no two generated, have the same type *)
Record family (kd ok : nat) (l : list decl) : Prop := Family {
  f_spec : forall d, In d l -> d_spec d = Some (kd, ok, exact d) /\ d_fn d = true /\ d_intr d = false /\ d_name d <> 0 /\ d_load d = true;
  f_same : forall a b, In a l -> In b l -> d_mangle a = d_mangle b -> exact a = exact b /\ d_copy a = d_copy b;
  f_inj : forall a b, In a l -> In b l -> d_mangle a = d_mangle b -> d_over a = d_over b -> a = b }.
(** no identifier with C linkage *)
Definition no_c (t : tabs) : Prop := forall n e, In e (ids t (KId n)) -> d_load (who (snd e)) = true.
