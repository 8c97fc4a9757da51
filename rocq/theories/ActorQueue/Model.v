(* The message queues of the actor system: struct copy_queue of
   /repo/libcfa/src/concurrency/actor.hfa, lines 77-126, and how the work queues
   are divided among the workers, lines 320-330 and 519-528.

   Simplifications: the buffer is a list with one element per allocated request,
   None if nothing was written there; sizes are naturals, so doubling does not
   wrap; memory is not exhausted. *)

From Coq Require Import List Arith Bool.
Import ListNotations.

(* actor.hfa:54-58, receiver and message *)
Record req := R { rcv : nat; tag : nat }.

(* actor.hfa:77-80 *)
Record cq := CQ { buf : list (option req); count : nat; bsize : nat; index : nat; utilized : nat; last : nat }.

(* actor.hfa:82-89 *)
Definition cq_new (n : nat) : cq := CQ (repeat None n) 0 n 0 0 0.

(* realloc *)
Definition resize (n : nat) (b : list (option req)) : list (option req) := firstn n (b ++ repeat None n).

Fixpoint put {A} (l : list A) (n : nat) (x : A) : list A :=
  match l, n with
  | [], _ => []
  | _ :: r, O => x :: r
  | a :: r, S m => a :: put r m x
  end.

(* actor.hfa:95-104; None: written outside the buffer *)
Definition cq_insert (c : cq) (r : req) : option cq :=
  let c := if bsize c <=? count c
           then CQ (resize (2 * bsize c) (buf c)) (count c) (2 * bsize c) (index c) (utilized c) (bsize c)
           else c in
  if count c <? length (buf c)
  then Some (CQ (put (buf c) (count c) (Some r)) (S (count c)) (bsize c) (index c) (utilized c) (last c))
  else None.

Inductive removed := Nothing | Bad | Got (r : req) (c : cq).   (* Bad: what is read was not written *)

(* actor.hfa:108-116; Nothing: *0p *)
Definition cq_remove (c : cq) : removed :=
  match count c with
  | O => Nothing
  | S n =>
      match nth_error (buf c) (index c) with
      | Some (Some r) => Got r (CQ (buf c) n (bsize c) (if n =? 0 then 0 else S (index c)) (utilized c) (last c))
      | _ => Bad
      end
  end.

(* actor.hfa:119-124 *)
Definition cq_reclaim (c : cq) : cq :=
  if (last c <=? utilized c) || (bsize c <=? 4)
  then CQ (buf c) (count c) (bsize c) (index c) 0 (last c)
  else CQ (resize (bsize c - 1) (buf c)) (count c) (bsize c - 1) (index c) 0 (last c).

(* actor.hfa:126 *)
Definition cq_empty (c : cq) : bool := count c =? 0.

(* actor.hfa:178, part of transfer *)
Definition cq_mark (c : cq) : cq := CQ (buf c) (count c) (bsize c) (index c) (count c) (last c).

(* What a worker does with a queue: operations while it is filled, then, once
   removed from, until it is empty. *)
Inductive op := OInsert (r : req) | ORemove | OReclaim | OMark.

Inductive res := Done (c : cq) (out : option req) | Undef.

Definition run1 (c : cq) (o : op) : res :=
  match o with
  | OInsert r => match cq_insert c r with Some c => Done c None | None => Undef end
  | ORemove => match cq_remove c with Nothing => Done c None | Bad => Undef | Got r c => Done c (Some r) end
  | OReclaim => Done (cq_reclaim c) None
  | OMark => Done (cq_mark c) None
  end.

Fixpoint runs (c : cq) (l : list op) : option (cq * list (option req)) :=
  match l with
  | [] => Some (c, [])
  | o :: l =>
      match run1 c o with
      | Undef => None
      | Done c x => match runs c l with Some (c, xs) => Some (c, x :: xs) | None => None end
      end
  end.

(* -- the workers' parts of the queues -- *)

(* actor.hfa:320-330: reqPerWorker, extras; start and range of worker i by
   adding up *)
Definition range (nw nq i : nat) : nat := nq / nw + (if i <? nq mod nw then 1 else 0).
Fixpoint start (nw nq i : nat) : nat :=
  match i with O => 0 | S j => start nw nq j + range nw nq j end.

(* actor.hfa:519-528: what a thief computes *)
Definition vic_range (nw nq v : nat) : nat := if v <? nq mod nw then nq / nw + 1 else nq / nw.
Definition vic_start (nw nq v : nat) : nat :=
  if v <? nq mod nw then (nq / nw + 1) * v else nq mod nw + v * (nq / nw).
