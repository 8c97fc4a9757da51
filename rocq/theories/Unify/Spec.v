(** What unification is meant to do, without the algorithm: an environment is a set of equations between type variables and types; a solution gives each variable a type. *)
From Coq Require Import List Bool Arith.
From Verif Require Import Unify.Model.
Import ListNotations.
(** the type t stands for when variable v is s v; outermost const, volatile and atomic of parameters do not count *)
Fixpoint val (s : nat -> ty) (t : ty) : ty :=
  match t with
  | Ptr q b => Ptr q (val s b)
  | Ref q b => Ref q (val s b)
  | Arr q d b => Arr q d (val s b)
  | Fun q ps rs => Fun q (map (fun p => strip (val s p)) ps) (map (val s) rs)
  | Agg q n ps => Agg q n (map (val s) ps)
  | TVar q v => setq q (s v)
  | _ => t
  end.
(** the equations of an environment *)
Definition solves (s : nat -> ty) (E : env) : Prop :=
  (forall v, qof (s v) = noq) /\
  forall c, In c E -> (forall u v, In u (vars c) -> In v (vars c) -> s u = s v)
                      /\ (forall b v, bound c = Some b -> In v (vars c) -> s v = setq noq (val s b)).
(** variable v is in the class number i *)
Definition cl (E : env) (v i : nat) : Prop := exists c, In c E /\ In v (vars c) /\ id c = i.
(** the binding of class i mentions a variable of class j *)
Definition edge (E : env) (i j : nat) : Prop := exists c b v, In c E /\ id c = i /\ bound c = Some b /\ In v (tvars b) /\ cl E v j.
Definition acyclic (E : env) : Prop := forall i, Acc (fun j i => edge E i j) i.
(** each class has its own number, each variable at most one class, no binding leads back to its own class *)
Record ok_env (E : env) : Prop := {
  e_ids : NoDup (map id E);
  e_one : forall c c' v, In c E -> In c' E -> In v (vars c) -> In v (vars c') -> c = c';
  e_acy : acyclic E
}.
Arguments e_ids {E}. Arguments e_one {E}. Arguments e_acy {E}.
(** Types on which unification is exact: no references, no array without dimension, no enumeration that converts to another type, and no function parameter that is a mutex pointer or a pointer to a qualified
    type. *)
Definition param_ok (t : ty) : Prop := match t with Ptr q b => qm q = false /\ qof b = noq | _ => True end.
Fixpoint plain (d : decls) (t : ty) : Prop :=
  match t with
  | Void _ | Basic _ _ | TVar _ _ | Zero _ | One _ => True
  | Ptr _ b => plain d b
  | Ref _ _ => False
  | Arr _ (Some _) b => plain d b
  | Arr _ None _ => False
  | Fun _ ps rs => fold_right and True (map (fun p => plain d p /\ param_ok p) ps) /\ fold_right and True (map (plain d) rs)
  | Agg _ _ ps => fold_right and True (map (plain d) ps)
  | Enm _ n => cenum d n = false /\ forall m, child d n m = true -> m = n
  end.
(** variables without a class that have the same name are the same *)
Definition names_ok (d : decls) (E : env) : Prop := forall v w, lookup E v = None -> lookup E w = None -> nm d v = nm d w -> v = w.
(** bindings are plain, unqualified, and not just another open variable *)
Definition plain_env (d : decls) (E : env) : Prop := forall c b, In c E -> bound c = Some b -> plain d b /\ qof b = noq /\ opened E b = None.
(** a solution that leaves the variables without a class alone and respects the declarations of the others *)
Definition proper (d : decls) (s : nat -> ty) (E : env) : Prop :=
  (forall v, lookup E v = None -> s v = TVar noq v) /\
  (forall v, lookup E v <> None -> compat d v (s v) = true).
(** Environments that combine has no trouble with: no class of o has variables of two classes of E; a binding mentions variables of E, of earlier classes of o, or variables without a class in both. *)
Record fit (d : decls) (E o : env) : Prop := {
  h_plain : forall c b, In c o -> bound c = Some b -> plain d b /\ qof b = noq /\ opened E b = None /\ opened o b = None;
  h_one : forall c u v, In c o -> In u (vars c) -> In v (vars c) -> lookup E u <> None -> lookup E v <> None -> lookup E u = lookup E v;
  h_old : forall x b c v, In x E -> bound x = Some b -> In c o -> In v (vars c) -> In v (tvars b) -> lookup E v <> None;
  h_order : forall o1 c o2 b c' v, o = o1 ++ c :: o2 -> bound c = Some b -> In c' (c :: o2) -> In v (vars c') -> In v (tvars b) -> lookup E v <> None;
  h_allow : forall c, In c E \/ In c o -> allow c = false
}.
Arguments h_plain {d E o}. Arguments h_one {d E o}. Arguments h_old {d E o}. Arguments h_order {d E o}. Arguments h_allow {d E o}.
