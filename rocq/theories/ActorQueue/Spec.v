(* A queue that is filled, then emptied. *)

From Coq Require Import List Arith Bool.
From Verif.ActorQueue Require Import Model.
Import ListNotations.

(* The results of the operations on a first-in-first-out queue holding l, of
   which elements were already taken if d.  None: insertion into a queue some of
   whose elements were taken and some not, reclaiming one that is not empty. *)
Fixpoint fifo (l : list req) (d : bool) (ops : list op) : option (list req * list (option req)) :=
  match ops with
  | [] => Some (l, [])
  | o :: ops =>
      let more x r := match r with Some (l, xs) => Some (l, x :: xs) | None => None end in
      match o, l with
      | OInsert r, _ => if d then None else more None (fifo (l ++ [r]) false ops)
      | ORemove, [] => more None (fifo [] false ops)
      | ORemove, x :: l => more (Some x) (fifo l (match l with [] => false | _ => true end) ops)
      | OReclaim, [] => more None (fifo [] false ops)
      | OReclaim, _ => None
      | OMark, _ => more None (fifo l d ops)
      end
  end.

(* The most that is in the queue at any time. *)
Fixpoint peak (n : nat) (ops : list op) : nat :=
  match ops with
  | [] => n
  | OInsert _ :: ops => max n (peak (S n) ops)
  | ORemove :: ops => max n (peak (n - 1) ops)
  | _ :: ops => peak n ops
  end.
