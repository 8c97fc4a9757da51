(** Model of src/Common/FilterCombos.hpp.
    The index vector is a list with its back first; an out-of-bounds access gives [None]; the outer loop carries
    fuel ([None] when exhausted).  Simplification: indices do not wrap ([unsigned], at most the queue length). *)
From Coq Require Import List Arith Bool.
Import ListNotations.

Section F.
(** The combo iterator is a parameter: element, state and output types, and its three methods *)
Context {T St O : Type} (append : St -> T -> St * bool) (backtrack : St -> St) (finalize : St -> O).

Definition queue_len (qs : list (list T)) (i : nat) : nat := length (nth i qs []).

(** FilterCombos.hpp:86-93: the inner while loop *)
Fixpoint unwind (qs : list (list T)) (inds : list nat) (it : St) : list nat * St :=
  match inds with
  | [] => ([], it)
  | i :: r => let it' := backtrack it in
              if Nat.ltb (S i) (queue_len qs (length r)) then (S i :: r, it') else unwind qs r it'
  end.

(** FilterCombos.hpp:61-98: the outer loop *)
Fixpoint loop (fuel : nat) (qs : list (list T)) (inds : list nat) (it : St) (out : list O) : option (list O * St) :=
  match fuel, inds with
  | S f, j :: r =>
      let i := length r in
      match nth_error qs i with
      | None => None
      | Some q =>
          match nth_error q j with
          | None => None
          | Some x =>
              let (it1, ok) := append it x in
              if ok && negb (Nat.eqb (i + 1) (length qs)) then loop f qs (0 :: inds) it1 out      (* :71-74 *)
              else
                let (out', it2) := if ok then (out ++ [finalize it1], backtrack it1) else (out, it1) in
                if Nat.ltb (S j) (length q) then loop f qs (S j :: r) it2 out'                     (* :78-79 *)
                else let (inds', it3) := unwind qs r it2 in
                     match inds' with [] => Some (out', it3) | _ => loop f qs inds' it3 out' end
          end
      end
  | _, _ => None
  end.
(** FilterCombos.hpp:50-60; gives the output and the final state of the iterator *)
Definition filterCombos (fuel : nat) (qs : list (list T)) (it : St) : option (list O * St) :=
  if existsb (fun q => match q with [] => true | _ => false end) qs then Some ([], it)
  else loop fuel qs [0] it [].
End F.

(** FilterCombos.hpp:27-45, IntoVectorComboIter: the vector is kept back first *)
Definition iv_append {T} (s : list T) (x : T) : list T * bool := (x :: s, true).
Definition iv_backtrack {T} (s : list T) : list T := tl s.
Definition iv_finalize {T} (s : list T) : list T := rev s.
