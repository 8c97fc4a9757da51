(** Type substitutions of the compiler: src/AST/TypeSubstitution.cpp:47-90 and 145-200.
    A type is a type variable (TypeInstType), a function type with the variables its forall binds, or any other constructor with its component types. Qualifiers are a bit set.
    A key (TypeEnvKey: declaration, formal_usage, expr_id) is a number. The hash map is the list of its entries in iteration order, at most one entry for a key.
    Expressions inside types (array dimensions) and the sharing of nodes are not modelled. The loop of lookup and the recursion of the visitor take a fuel; None = not finished with that fuel. *)
From Coq Require Import List Bool Arith.
Import ListNotations.
Inductive ty :=
  | Var (q k : nat)
  | Con (q c : nat) (args : list ty)
  | Fun (q : nat) (vs : list nat) (args : list ty).
Definition map_ := list (nat * ty).
Fixpoint find (m : map_) (k : nat) : option ty :=
  match m with
  | [] => None
  | (j, r) :: m' => if Nat.eqb j k then Some r else find m' k
  end.
(** add, 53-59: typeMap[key] = actual *)
Fixpoint add (m : map_) (k : nat) (t : ty) : map_ :=
  match m with
  | [] => [(k, t)]
  | (j, r) :: m' => if Nat.eqb j k then (j, t) :: m' else (j, r) :: add m' k t
  end.
(** add( other ), 47-51 *)
Definition add_all (m other : map_) : map_ := fold_left (fun a e => add a (fst e) (snd e)) other m.
(** remove, 57-62 *)
Definition remove (m : map_) (k : nat) : map_ := filter (fun e => negb (Nat.eqb (fst e) k)) m.
(** the loop of lookup, 72-79; t = i->second *)
Fixpoint follow (fuel : nat) (m : map_) (formal : nat) (t : ty) : option ty :=
  match fuel with
  | 0 => None
  | S f =>
      match t with
      | Var _ a =>
          if Nat.eqb formal a then Some t
          else match find m a with
               | None => Some t
               | Some t' => follow f m formal t'
               end
      | _ => Some t
      end
  end.
(** lookup, 64-83; Some None = the null pointer *)
Definition lookup (fuel : nat) (m : map_) (formal : nat) : option (option ty) :=
  match find m formal with
  | None => Some None
  | Some t => match follow fuel m formal t with Some r => Some (Some r) | None => None end
  end.
(** add_qualifiers, src/AST/Type.hpp:88-91 *)
Definition addq (q : nat) (t : ty) : ty :=
  match t with
  | Var p k => Var (Nat.lor p q) k
  | Con p c a => Con (Nat.lor p q) c a
  | Fun p vs a => Fun (Nat.lor p q) vs a
  end.
Definition mem (k : nat) (l : list nat) : bool := existsb (Nat.eqb k) l.
Definition is_var (t : ty) (k : nat) : bool := match t with Var _ j => Nat.eqb k j | _ => false end.
(** the components of a type, left to right; the number is what is added to subCount *)
Fixpoint walk (f : ty -> option (ty * nat)) (l : list ty) : option (list ty * nat) :=
  match l with
  | [] => Some ([], 0)
  | t :: l' =>
      match f t with
      | None => None
      | Some (t', n) => match walk f l' with None => None | Some (r, n') => Some (t' :: r, n + n') end
      end
  end.
(** the Substituter: postvisit of TypeInstType, 164-189, and previsit of FunctionType, 191-199; bv = boundVars *)
Fixpoint visit (fuel : nat) (m : map_) (free : bool) (bv : list nat) (t : ty) : option (ty * nat) :=
  match fuel with
  | 0 => None
  | S f =>
      match t with
      | Var q k =>
          if mem k bv then Some (t, 0)
          else match find m k with
               | None => Some (t, 0)
               | Some r =>
                   if is_var r k then Some (t, 0)
                   else match visit f m free bv (addq q r) with Some (t', n) => Some (t', S n) | None => None end
               end
      | Con q c a => match walk (visit f m free bv) a with Some (a', n) => Some (Con q c a', n) | None => None end
      | Fun q vs a => match walk (visit f m free (if free then vs ++ bv else bv)) a with Some (a', n) => Some (Fun q vs a', n) | None => None end
      end
  end.
(** apply and applyFree, TypeSubstitution.hpp:66-86 through applyBase, 156-162 *)
Definition apply (fuel : nat) (m : map_) (t : ty) : option (ty * nat) := visit fuel m false [] t.
Definition apply_free (fuel : nat) (m : map_) (t : ty) : option (ty * nat) := visit fuel m true [] t.
(** one pass of normalize, 150-152: the entries from the i-th on are visited with the map as it is at that moment *)
Fixpoint pass (fuel n i : nat) (m : map_) : option (map_ * nat) :=
  match n with
  | 0 => Some (m, 0)
  | S n' =>
      match nth_error m i with
      | None => Some (m, 0)
      | Some (k, r) =>
          match visit fuel m true [] r with
          | None => None
          | Some (r', c) => match pass fuel n' (S i) (add m k r') with Some (m', c') => Some (m', c + c') | None => None end
          end
      end
  end.
(** normalize, 145-154 *)
Fixpoint normalize (rounds fuel : nat) (m : map_) : option map_ :=
  match rounds with
  | 0 => None
  | S r => match pass fuel (length m) 0 m with Some (m', c) => if Nat.eqb c 0 then Some m' else normalize r fuel m' | None => None end
  end.
