(** Binding structure of a type, by names and by keys *)
From Coq Require Import ZArith List Bool.
From Verif Require Import Rename.Model.
Import ListNotations.
Open Scope Z_scope.
(** a type whose bound variables are given by their binder: how many clauses out, and the position in the clause *)
Inductive sk := SVar (d p : nat) | SFree (n : nat) (k : key) | SCon (c : nat) (l : list sk) | SFun (k : nat) (l : list sk).
Definition keqb (a b : key) : bool := (fst a =? fst b) && (snd a =? snd b).
Section Locate.
Context {A : Type} (eqb : A -> A -> bool).
Fixpoint pos (x : A) (f : list A) : option nat := match f with [] => None | y :: f => if eqb x y then Some O else option_map S (pos x f) end.
Fixpoint locate (x : A) (e : list (list A)) : option (nat * nat) :=
  match e with [] => None | f :: e => match pos x f with Some p => Some (O, p) | None => match locate x e with Some (d, p) => Some (S d, p) | None => None end end end.
End Locate.
(** lexical scoping of the names *)
Fixpoint by_name (e : list (list nat)) (t : ty) : sk :=
  match t with
  | Var n k => match locate Nat.eqb n e with Some (d, p) => SVar d p | None => SFree n k end
  | Con c l => SCon c (map (by_name e) l)
  | Fun fa l => SFun (length fa) (map (by_name (match fa with [] => e | _ => map fst fa :: e end)) l)
  end.
(** equality of keys, as used by the type environment *)
Fixpoint by_key (e : list (list key)) (t : ty) : sk :=
  match t with
  | Var n k => match locate keqb k e with Some (d, p) => SVar d p | None => SFree n k end
  | Con c l => SCon c (map (by_key e) l)
  | Fun fa l => SFun (length fa) (map (by_key (match fa with [] => e | _ => map snd fa :: e end)) l)
  end.
(** the keys of the binders, in order *)
Fixpoint keys (t : ty) : list key := match t with Var _ _ => [] | Con _ l => flat_map keys l | Fun fa l => map snd fa ++ flat_map keys l end.
(** no clause uses a name of an enclosing clause, or a name twice *)
Fixpoint apart (ns : list nat) (t : ty) : Prop :=
  match t with
  | Var _ _ => True
  | Con _ l => fold_right (fun t P => apart ns t /\ P) True l
  | Fun fa l => NoDup (map fst fa) /\ (forall n, In n (map fst fa) -> ~ In n ns) /\ fold_right (fun t P => apart (map fst fa ++ ns) t /\ P) True l
  end.
(** P for the names and keys of all variables that are bound (b = true) or free (b = false) *)
Fixpoint vars (P : bool -> key -> Prop) (ns : list nat) (t : ty) : Prop :=
  match t with
  | Var n k => P (existsb (Nat.eqb n) ns) k
  | Con _ l => fold_right (fun t Q => vars P ns t /\ Q) True l
  | Fun fa l => fold_right (fun t Q => vars P (map fst fa ++ ns) t /\ Q) True l
  end.
(** n consecutive numbers *)
Fixpoint zseq (a : Z) (n : nat) : list Z := match n with O => [] | S n => a :: zseq (a + 1) n end.
(** the variables, in order *)
Fixpoint leaves (t : ty) : list (nat * key) := match t with Var n k => [(n, k)] | Con _ l => flat_map leaves l | Fun _ l => flat_map leaves l end.
