From Coq Require Import List Bool Arith.
From Verif.WhenTree Require Import Model.
Import ListNotations.
(** when conditions of the clauses, in order *)
Fixpoint whens (s : src) : list bool := match s with Clause w => [w] | And l r | Or l r => whens l ++ whens r end.
Definition off (s : src) (cond : nat -> bool) (i : nat) : Prop := nth_error (whens s) i = Some true /\ cond i = false.
Definition on (s : src) (cond : nat -> bool) (i : nat) : Prop := exists w, nth_error (whens s) i = Some w /\ (w = true -> cond i = true).
(** the statement with the disabled clauses removed: None when nothing is left; otherwise whether the clauses that ran complete it *)
Fixpoint sem (s : src) (cond : nat -> bool) (ran : nat -> bool) (i : nat) : option bool :=
  let both l r f := match sem l cond ran i, sem r cond ran (i + length (whens l)) with Some a, Some b => Some (f a b) | Some a, None => Some a | None, x => x end in
  match s with
  | Clause w => if w && negb (cond i) then None else Some (ran i)
  | And l r => both l r andb
  | Or l r => both l r orb
  end.
Fixpoint has_and (s : src) : bool := match s with Clause _ => false | And _ _ => true | Or l r => has_and l || has_and r end.
(** statements written without parentheses (parser.yy:1831-1842) *)
Fixpoint wand (s : src) : bool := match s with Clause _ => true | And (Clause _) r => wand r | _ => false end.
Fixpoint wor (s : src) : bool := match s with Or l r => wor l && wand r | _ => wand s end.
