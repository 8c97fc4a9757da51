(** A single-waiter signal as an atomic object. [keep]: the signal stays once given (one-shot); otherwise a wait consumes
    it (semaphore). The second component says that the waiter has been released and has not yet continued. *)
From Coq Require Import List Bool Arith.
Import ListNotations.

Inductive ev :=
| Reg               (* wait: no signal there, the waiter blocks *)
| Take              (* wait: the signal was there, return false at once *)
| Wake              (* the blocked wait continues and returns true *)
| Post (p : nat) (b : bool). (* post by p, returned whether it released the waiter *)

Inductive cell := Empty | Full | Waiting.

Definition snext (keep : bool) (s : cell * bool) (e : ev) : option (cell * bool) :=
  match e, s with
  | Reg, (Empty, false) => Some (Waiting, false)
  | Take, (Full, false) => Some (if keep then Full else Empty, false)
  | Wake, (c, true) => Some (c, false)
  | Post _ false, (Empty, o) => Some (Full, o)
  | Post _ false, (Full, o) => Some (Full, o)
  | Post _ true, (Waiting, false) => Some (if keep then Full else Empty, true)
  | _, _ => None
  end.
(** Histories, latest event first. *)
Fixpoint legal (keep : bool) (l : list ev) : option (cell * bool) :=
  match l with
  | [] => Some (Empty, false)
  | e :: l => match legal keep l with Some s => snext keep s e | None => None end
  end.

Definition is_reg (e : ev) : bool := match e with Reg => true | _ => false end.
Definition is_wake (e : ev) : bool := match e with Wake => true | _ => false end.
Definition is_release (e : ev) : bool := match e with Post _ b => b | _ => false end.
Definition is_post (e : ev) : bool := match e with Post _ _ => true | _ => false end.
Definition count (f : ev -> bool) (l : list ev) : nat := length (filter f l).
Definition b2n (b : bool) : nat := if b then 1 else 0.
Definition waitingb (c : cell) : bool := match c with Waiting => true | _ => false end.
