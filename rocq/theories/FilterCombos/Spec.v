(** Specification: the cartesian product in lexicographic order, and prefix checkers. *)
From Coq Require Import List Bool.
Import ListNotations.
Section S.
Context {T : Type}.
Fixpoint product (qs : list (list T)) : list (list T) :=
  match qs with [] => [[]] | q :: r => flat_map (fun x => map (cons x) (product r)) q end.
(** every non-empty prefix of c is accepted *)
Definition valid (ok : list T -> bool) (c : list T) : bool := forallb (fun n => ok (firstn n c)) (seq 1 (length c)).
(** [rep s p]: the iterator state s has the prefix p appended.  A checker accepting [ok] appends and reports
    whether the extended prefix is acceptable (a rejected element is not kept), and backtrack removes the last. *)
Record checker {St O : Type} (append : St -> T -> St * bool) (backtrack : St -> St) (finalize : St -> O)
  (ok : list T -> bool) (fin : list T -> O) (rep : St -> list T -> Prop) : Prop := {
  ck_append : forall s p x, rep s p -> snd (append s x) = ok (p ++ [x]) /\
      rep (fst (append s x)) (if ok (p ++ [x]) then p ++ [x] else p);
  ck_backtrack : forall s p x, rep s (p ++ [x]) -> rep (backtrack s) p;
  ck_finalize : forall s p, rep s p -> finalize s = fin p }.
End S.
