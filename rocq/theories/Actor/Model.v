(* The executor of the actor system with work stealing:
   /repo/libcfa/src/concurrency/actor.hfa, lines 128-190 (work queues), 481-490
   (delivery), 491-584 (stealing), 587-661 (the workers), 663-670 (sending).

   One step is one atomic action: an insertion and a transfer are made under the
   queue's lock, the others read or write one shared variable.  What is read
   without the lock from a queue somebody else may be changing (is_empty and
   being_processed of a queue looked at) is arbitrary, as are the random numbers
   and the time stamps: an event says what they are.

   Simplifications: the statistics are left out; a request is a receiver and a
   number; the receive routine begins and ends, and what it sends are sends like
   any other; memory is sequentially consistent.  The receiver's ticket is a
   parameter tk (actor.hfa:387-398: some number modulo nrqueues). *)

From Coq Require Import List Arith Bool.
From Verif.ActorQueue Require Import Model.
Import ListNotations.

(* actor.hfa:128-138: c_queue, a number of a copy queue, and being_processed *)
Record wq := WQ { cqueue : nat; busy : bool }.

(* Where a worker is.  i: its loop variable. *)
Inductive place :=
| Top (i : nat)                                  (* 605: about to read request_queues[i + start] *)
| Look (i : nat) (q : option nat)                (* 612: is_empty( *curr_work_queue->c_queue ) *)
| Xfer (i : nat) (q : nat)                       (* 620: transfer *)
| Took (i : nat) (q : nat)                       (* 625: is_empty( *current_queue ) *)
| Steal (i : nat)                                (* 639: steal_work *)
| Pick (i v j t m : nat)                         (* 534: the loop of choose_queue: victim, i, tries, swap_idx *)
| SwapA (i v m : nat)                            (* 494: read my_queue *)
| SwapB (i v m : nat) (my : option nat)          (* 495-498: read other_queue *)
| SwapC (i v m : nat) (my : option nat) (o : nat)  (* 501: first compare and exchange *)
| SwapD (i v m : nat) (my : option nat) (o : nat)  (* 505: second *)
| SwapE (i m : nat) (my : option nat)            (* 506-507: verify, reset *)
| SwapF (i m : nat) (o : nat)                    (* 512: write back *)
| Run (i q : nat)                                (* 643: the loop over current_queue *)
| Busy (i q : nat) (r : req)                     (* 649: in deliver_request *)
| Done (i q : nat)                               (* 652: being_processed = false *)
| Ends (i : nat)                                 (* 656: CHECK_TERMINATION, reclaim *)
| Exited.

(* current_queue and empty_count *)
Record worker := W { cur : nat; ec : nat; at_ : place }.

Record sys := Sys {
  slots : list (option nat);                     (* worker_req_queues; None: 0p *)
  wqs : list wq;                                 (* request_queues *)
  cqs : list cq;                                 (* all copy queues *)
  ws : list worker;
  shut : bool;                                   (* is_shutdown *)
  sent : list req;                               (* history: inserted *)
  begun : list req;                              (* history: receive called *)
  ended : list req                               (* history: receive returned *)
}.

Record conf := Conf { nw : nat; nq : nat; bufsize : nat; nosteal : bool; tk : nat -> nat }.

Inductive out := Ok (s : sys) | Undefined | Assert.

(* Send r; shutdown; worker w does its next step, with what it reads. *)
Inductive ev :=
| Send (r : req)
| Shut
| Work (w : nat) (seen : bool) (x y z : nat).

Definition oeqb (a b : option nat) : bool :=
  match a, b with Some a, Some b => a =? b | None, None => true | _, _ => false end.

Section conf.
Variable c : conf.

(* actor.hfa:306-330 *)
Definition init : sys :=
  Sys (map Some (seq 0 (nq c))) (map (fun i => WQ i false) (seq 0 (nq c)))
      (repeat (cq_new (bufsize c)) (nq c + nw c))
      (map (fun i => W (nq c + i) 0 (Top 0)) (seq 0 (nw c))) false [] [] [].

Definition with_ws (s : sys) (l : list worker) : sys := Sys (slots s) (wqs s) (cqs s) l (shut s) (sent s) (begun s) (ended s).
Definition go (s : sys) (w : nat) (k : worker) (p : place) : sys := with_ws s (put (ws s) w (W (cur k) (ec k) p)).
Definition go_ec (s : sys) (w : nat) (k : worker) (n : nat) (p : place) : sys := with_ws s (put (ws s) w (W (cur k) n p)).
Definition set_slot (s : sys) (m : nat) (x : option nat) : sys := Sys (put (slots s) m x) (wqs s) (cqs s) (ws s) (shut s) (sent s) (begun s) (ended s).
Definition set_cq (s : sys) (n : nat) (x : cq) : sys := Sys (slots s) (wqs s) (put (cqs s) n x) (ws s) (shut s) (sent s) (begun s) (ended s).
Definition set_wq (s : sys) (n : nat) (x : wq) : sys := Sys (slots s) (put (wqs s) n x) (cqs s) (ws s) (shut s) (sent s) (begun s) (ended s).

(* actor.hfa:156-160 and 663-670 *)
Definition send (s : sys) (r : req) : out :=
  match nth_error (wqs s) (tk c (rcv r)) with
  | None => Undefined
  | Some q =>
      match nth_error (cqs s) (cqueue q) with
      | None => Undefined
      | Some b =>
          match cq_insert b r with
          | None => Undefined
          | Some b => let s := set_cq s (cqueue q) b in
                      Ok (Sys (slots s) (wqs s) (cqs s) (ws s) (shut s) (sent s ++ [r]) (begun s) (ended s))
          end
      end
  end.

(* actor.hfa:162-184; the worker goes on to Took *)
Definition transfer (s : sys) (w : nat) (k : worker) (i q : nat) : out :=
  match nth_error (wqs s) q with
  | None => Undefined
  | Some x =>
      if busy x then Ok (go s w k (Took i q))
      else
        match nth_error (cqs s) (cqueue x) with
        | None => Undefined
        | Some b =>
            let s := set_cq s (cqueue x) (cq_mark b) in
            let s := set_wq s q (WQ (cur k) (negb (count b =? 0))) in
            Ok (go s w (W (cqueue x) (ec k) (at_ k)) (Took i q))
        end
  end.

Definition next (w i : nat) : place := Top ((i + 1) mod range (nw c) (nq c) w).
Definition begin_ (w : nat) : nat := start (nw c) (nq c) w.
Definition threshold (w : nat) : nat := 2 * range (nw c) (nq c) w.

(* actor.hfa:587-661.  None: no such step. *)
Definition work (s : sys) (w : nat) (seen : bool) (x y z : nat) : option out :=
  match nth_error (ws s) w with
  | None => None
  | Some k =>
      match at_ k with
      | Top i =>
          match nth_error (slots s) (i + begin_ w) with
          | None => Some Undefined
          | Some q => Some (Ok (go s w k (Look i q)))
          end
      | Look i None => Some Undefined              (* *0p *)
      | Look i (Some q) =>
          if seen
          then if S (ec k) <? threshold w then Some (Ok (go_ec s w k (S (ec k)) (next w i)))
               else Some (Ok (go_ec s w k (S (ec k)) (Xfer i q)))
          else Some (Ok (go s w k (Xfer i q)))
      | Xfer i q => Some (transfer s w k i q)
      | Took i q =>
          match nth_error (cqs s) (cur k) with
          | None => Some Undefined
          | Some b =>
              if cq_empty b
              then if nosteal c then Some (Ok (go s w k (if shut s then Exited else next w i)))
                   else if S (ec k) <? threshold w then Some (Ok (go_ec s w k (S (ec k)) (next w i)))
                   else Some (Ok (go_ec s w k 0 (if shut s then Exited else Steal i)))
              else Some (Ok (go s w k (Run i q)))
          end
      | Steal i =>                                 (* x: victim, y: start_idx, z: where to swap *)
          if (x <? nw c) && (y <? vic_range (nw c) (nq c) x) && (z <? range (nw c) (nq c) w)
          then Some (Ok (go s w k (Pick i x y 0 (begin_ w + z))))
          else None
      | Pick i v j t m =>
          if t <? vic_range (nw c) (nq c) v
          then match nth_error (slots s) (j + vic_start (nw c) (nq c) v) with
               | None => Some Undefined
               | Some None => Some (Ok (go s w k (Pick i v ((j + 1) mod vic_range (nw c) (nq c) v) (S t) m)))
               | Some (Some q) =>
                   if seen then Some (Ok (go s w k (Pick i v ((j + 1) mod vic_range (nw c) (nq c) v) (S t) m)))
                   else Some (Ok (go s w k (SwapA i (j + vic_start (nw c) (nq c) v) m)))
               end
          else Some (Ok (go s w k (next w i)))
      | SwapA i v m =>
          match nth_error (slots s) m with None => Some Undefined | Some my => Some (Ok (go s w k (SwapB i v m my))) end
      | SwapB i v m my =>
          match nth_error (slots s) v with
          | None => Some Undefined
          | Some None => Some (Ok (go s w k (next w i)))
          | Some (Some o) => Some (Ok (go s w k (SwapC i v m my o)))
          end
      | SwapC i v m my o =>
          match nth_error (slots s) m with
          | None => Some Undefined
          | Some q => if oeqb q my then Some (Ok (go (set_slot s m None) w k (SwapD i v m my o)))
                      else Some (Ok (go s w k (next w i)))
          end
      | SwapD i v m my o =>
          match nth_error (slots s) v with
          | None => Some Undefined
          | Some q => if oeqb q (Some o) then Some (Ok (go (set_slot s v my) w k (SwapF i m o)))
                      else Some (Ok (go s w k (SwapE i m my)))
          end
      | SwapE i m my =>
          match nth_error (slots s) m with
          | Some None => Some (Ok (go (set_slot s m my) w k (next w i)))
          | _ => Some Assert
          end
      | SwapF i m o => Some (Ok (go (set_slot s m (Some o)) w k (next w i)))
      | Run i q =>
          match nth_error (cqs s) (cur k) with
          | None => Some Undefined
          | Some b =>
              if cq_empty b then Some (Ok (go s w k (Done i q)))
              else match cq_remove b with
                   | Nothing => Some (Ok s)        (* if ( !&req ) continue *)
                   | Bad => Some Undefined
                   | Got r b =>
                       let s := go (set_cq s (cur k) b) w k (Busy i q r) in
                       Some (Ok (Sys (slots s) (wqs s) (cqs s) (ws s) (shut s) (sent s) (begun s ++ [r]) (ended s)))
                   end
          end
      | Busy i q r =>
          let s := go s w k (Run i q) in
          Some (Ok (Sys (slots s) (wqs s) (cqs s) (ws s) (shut s) (sent s) (begun s) (ended s ++ [r])))
      | Done i q =>
          match nth_error (wqs s) q with
          | None => Some Undefined
          | Some x => Some (Ok (go_ec (set_wq s q (WQ (cqueue x) false)) w k 0 (Ends i)))
          end
      | Ends i =>
          if shut s then Some (Ok (go s w k Exited))
          else match nth_error (cqs s) (cur k) with
               | None => Some Undefined
               | Some b => Some (Ok (go (set_cq s (cur k) (cq_reclaim b)) w k (next w i)))
               end
      | Exited => None
      end
  end.

Definition step (s : sys) (e : ev) : option out :=
  match e with
  | Send r => Some (send s r)
  | Shut => Some (Ok (Sys (slots s) (wqs s) (cqs s) (ws s) true (sent s) (begun s) (ended s)))
  | Work w b x y z => work s w b x y z
  end.

Inductive reach : sys -> Prop :=
| reach_init : reach init
| reach_step : forall s e s', reach s -> step s e = Some (Ok s') -> reach s'.

End conf.

(* What executors there are: actor.hfa:285; buf_size is not tested. *)
Definition fine (c : conf) : Prop :=
  1 <= nw c <= nq c /\ 1 <= bufsize c /\ (forall a, tk c a < nq c).
