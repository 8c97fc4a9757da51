(** libcfa/src/concurrency/locks.hfa:453-501 fast_block_lock (lock, unlock, on_notify, with the default on_wait and
    on_wakeup macros, locks.hfa:65-82) used with cond_lock condition variables (locks.cfa:333-408).
    One transition per critical section of a spin lock. A thread unlocks only what it locked.
    Left out: time-outs, user information, parking itself (an unparked thread continues, [Verif.Park]). *)
From Coq Require Import List Bool Arith.
Import ListNotations.

(** Running; queued in [lock]; in [wait] on condition c: enqueued there, lock not yet released / released, parked;
    notified before it released the lock (so: queued on the lock it holds); notified, queued, parked. *)
Inductive tst := FRun | FLock | FW1 (c : nat) | FW2 (c : nat) | FN1 | FQ.

Record st := S_ {
  held : bool;
  q : list nat;                (* blocked_threads *)
  cq : nat -> list nat;        (* blocked_threads of the condition variables *)
  ts : nat -> tst;
  d : nat -> bool;             (* ghost: the thread believes to hold the lock *)
  arr : list nat; gr : list nat (* ghost: arrivals at and departures from the queue *)
}.
Definition upd {A} (f : nat -> A) (i : nat) (x : A) : nat -> A := fun j => if j =? i then x else f j.
(** locks.hfa:464-468. *)
Definition init : st := S_ false [] (fun _ => []) (fun _ => FRun) (fun _ => false) [] [].

(** locks.hfa:474-484. *)
Definition lock (s : st) (t : nat) : st :=
  if held s then S_ true (q s ++ [t]) (cq s) (upd (ts s) t FLock) (d s) (arr s ++ [t]) (gr s)
  else S_ true (q s) (cq s) (ts s) (upd (d s) t true) (arr s) (gr s).
(** locks.hfa:486-493: t unlocks and is then in state k. The first queued thread is unparked and holds the lock; if that
    is t itself ([k] = FQ) its park returns at once. *)
Definition unlock (s : st) (t : nat) (k : tst) : st :=
  let f := upd (ts s) t k in let g := upd (d s) t false in
  match q s with
  | x :: l => S_ true l (cq s) (upd f x FRun) (upd g x true) (arr s) (gr s ++ [x])
  | [] => S_ false [] (cq s) f g (arr s) (gr s)
  end.
(** locks.hfa:495-499. *)
Definition on_notify (s : st) (x : nat) : st :=
  S_ (held s) (q s ++ [x]) (cq s) (upd (ts s) x (match ts s x with FW1 _ => FN1 | _ => FQ end)) (d s) (arr s ++ [x]) (gr s).

Inductive op := OLock (t : nat) | OUnlock (t : nat) | OWait (t c : nat) | ORelease (t : nat) | ONotify (t c : nat).
Definition step (hold : bool) (s : st) (o : op) : option st :=
  match o with
  | OLock t => match ts s t with FRun => if d s t then None else Some (lock s t) | _ => None end
  | OUnlock t => match ts s t with FRun => if d s t then Some (unlock s t FRun) else None | _ => None end
  | OWait t c => (* locks.cfa:389-392 *)
      match ts s t with
      | FRun => if d s t then Some (S_ (held s) (q s) (upd (cq s) c (cq s c ++ [t])) (upd (ts s) t (FW1 c)) (d s) (arr s) (gr s)) else None
      | _ => None
      end
  | ORelease t => (* on_wait, locks.hfa:68-73 *)
      match ts s t with FW1 c => Some (unlock s t (FW2 c)) | FN1 => Some (unlock s t FQ) | _ => None end
  | ONotify t c => (* locks.cfa:347-353 *)
      match ts s t with
      | FRun => if d s t || negb hold then
                  match cq s c with
                  | [] => Some s
                  | x :: l => Some (on_notify (S_ (held s) (q s) (upd (cq s) c l) (ts s) (d s) (arr s) (gr s)) x)
                  end
                else None
      | _ => None
      end
  end.
Inductive reach (hold : bool) : st -> Prop :=
| r_init : reach hold init
| r_step s o s' : reach hold s -> step hold s o = Some s' -> reach hold s'.
