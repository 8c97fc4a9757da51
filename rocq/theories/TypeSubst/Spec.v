(** What a substitution means, stated without the visitor. *)
From Coq Require Import List Bool Arith.
From Verif.TypeSubst Require Import Model.
Import ListNotations.
(** k leads to t through variable-to-variable bindings: t is a binding that is not a variable, or a variable without a binding *)
Inductive chain_end (m : map_) : nat -> ty -> Prop :=
  | E_type k t : find m k = Some t -> (forall q a, t <> Var q a) -> chain_end m k t
  | E_open k q a : find m k = Some (Var q a) -> find m a = None -> chain_end m k (Var q a)
  | E_step k q a t : find m k = Some (Var q a) -> chain_end m a t -> chain_end m k t.
(** k leads back to b through one or more variable-to-variable bindings, the last with qualifiers q *)
Inductive chain_back (m : map_) (b : nat) : nat -> nat -> Prop :=
  | B_last k q : find m k = Some (Var q b) -> chain_back m b k q
  | B_step k q a p : find m k = Some (Var q a) -> a <> b -> chain_back m b a p -> chain_back m b k p.
(** v occurs in t *)
Inductive occurs (v : nat) : ty -> Prop :=
  | O_var q : occurs v (Var q v)
  | O_con q c l t : In t l -> occurs v t -> occurs v (Con q c l)
  | O_fun q vs l t : In t l -> occurs v t -> occurs v (Fun q vs l).
(** the variable is bound to something other than itself *)
Definition bound (m : map_) (v : nat) (r : ty) : Prop := find m v = Some r /\ forall q, r <> Var q v.
(** no variable is reached from its own binding *)
Definition acyclic (m : map_) : Prop := exists rank : nat -> nat, forall v r w s, bound m v r -> occurs w r -> bound m w s -> rank w < rank v.
(** nothing is left to substitute *)
Definition solved (m : map_) (t : ty) : Prop := forall v r, occurs v t -> ~ bound m v r.
(** the equality generated by the bindings *)
Inductive same (m : map_) : ty -> ty -> Prop :=
  | S_bind q v r : bound m v r -> same m (Var q v) (addq q r)
  | S_refl t : same m t t
  | S_sym a b : same m a b -> same m b a
  | S_trans a b c : same m a b -> same m b c -> same m a c
  | S_con q c l l' : Forall2 (same m) l l' -> same m (Con q c l) (Con q c l')
  | S_fun q vs l l' : Forall2 (same m) l l' -> same m (Fun q vs l) (Fun q vs l').
(** v occurs in t outside the function types that bind it *)
Inductive free_in (v : nat) : ty -> Prop :=
  | F_var q : free_in v (Var q v)
  | F_con q c l t : In t l -> free_in v t -> free_in v (Con q c l)
  | F_fun q vs l t : ~ In v vs -> In t l -> free_in v t -> free_in v (Fun q vs l).
(** no function type inside t binds a variable *)
Inductive mono : ty -> Prop :=
  | M_var q k : mono (Var q k)
  | M_con q c l : Forall mono l -> mono (Con q c l)
  | M_fun q l : Forall mono l -> mono (Fun q [] l).
