(** libcfa/src/concurrency/locks.hfa:754-803 block_spin_lock: a fast_block_lock (locks.hfa:453-493) whose holder spins on
    [held], used with cond_lock condition variables (locks.cfa:333-408). One transition per atomic access of [held] and
    per critical section of a spin lock. A thread unlocks only what it locked. Left out: time-outs, user information,
    parking itself (an unparked thread continues, [Verif.Park]). Sequentially consistent memory. *)
From Coq Require Import List Bool Arith.
Import ListNotations.

(** Running without / with the lock; queued in the inner lock; owner of the inner lock: spinning on [held], seen it false,
    set it; waiting on condition c: enqueued there and lock not yet released / released, parked; notified before it
    released the lock: queued in the inner lock / owning the inner lock. *)
Inductive tst := BRun | BHold | BQ | BSpin | BStore | BUnl | BW1 (c : nat) | BW2 (c : nat) | BNQ | BNS.

Record st := S_ {
  ih : bool; q : list nat;     (* inner lock: held, blocked_threads *)
  oh : bool;                   (* held *)
  cq : nat -> list nat;        (* condition queues *)
  ts : nat -> tst;
  arr : list nat; gr : list nat (* ghost: arrivals at and departures from the inner queue *)
}.
Definition upd {A} (f : nat -> A) (i : nat) (x : A) : nat -> A := fun j => if j =? i then x else f j.
(** locks.hfa:762-765. *)
Definition init : st := S_ false [] false (fun _ => []) (fun _ => BRun) [] [].
Definition setk (s : st) (t : nat) (k : tst) : st := S_ (ih s) (q s) (oh s) (cq s) (upd (ts s) t k) (arr s) (gr s).
Definition seth (s : st) (b : bool) (t : nat) (k : tst) : st := S_ (ih s) (q s) b (cq s) (upd (ts s) t k) (arr s) (gr s).

(** locks.hfa:474-484 via 772. *)
Definition inner_lock (s : st) (t : nat) : st :=
  if ih s then S_ true (q s ++ [t]) (oh s) (cq s) (upd (ts s) t BQ) (arr s ++ [t]) (gr s)
  else S_ true (q s) (oh s) (cq s) (upd (ts s) t BSpin) (arr s) (gr s).
(** locks.hfa:486-493 via 775 and 801. *)
Definition inner_unlock (s : st) : st :=
  match q s with
  | x :: l => S_ true l (oh s) (cq s) (upd (ts s) x (match ts s x with BNQ => BNS | _ => BSpin end)) (arr s) (gr s ++ [x])
  | [] => S_ false [] (oh s) (cq s) (ts s) (arr s) (gr s)
  end.
(** locks.hfa:782-795: x was removed from a condition queue. *)
Definition on_notify (s : st) (x : nat) : st :=
  if ih s then S_ true (q s ++ [x]) (oh s) (cq s) (upd (ts s) x (match ts s x with BW1 _ => BNQ | _ => BQ end)) (arr s ++ [x]) (gr s)
  else S_ true (q s) (oh s) (cq s) (upd (ts s) x (match ts s x with BW1 _ => BNS | _ => BSpin end)) (arr s) (gr s).

Inductive op := OLock (t : nat) | OStep (t : nat) | OUnlock (t : nat) | OWait (t c : nat) | ORelease (t : nat) | ONotify (t c : nat).
Definition may_notify (k : tst) : bool := match k with BRun | BHold => true | _ => false end.
Definition step (s : st) (o : op) : option st :=
  match o with
  | OLock t => match ts s t with BRun => Some (inner_lock s t) | _ => None end
  | OStep t => (* locks.hfa:773-775 and on_wakeup, 797-802 *)
      match ts s t with
      | BSpin => Some (if oh s then s else setk s t BStore)
      | BStore => Some (seth s true t BUnl)
      | BUnl => Some (inner_unlock (setk s t BHold))
      | _ => None
      end
  | OUnlock t => match ts s t with BHold => Some (seth s false t BRun) | _ => None end (* 778-780 *)
  | OWait t c => (* locks.cfa:389-392 *)
      match ts s t with BHold => Some (S_ (ih s) (q s) (oh s) (upd (cq s) c (cq s c ++ [t])) (upd (ts s) t (BW1 c)) (arr s) (gr s)) | _ => None end
  | ORelease t => (* default on_wait, locks.hfa:68-73 *)
      match ts s t with
      | BW1 c => Some (seth s false t (BW2 c)) | BNQ => Some (seth s false t BQ) | BNS => Some (seth s false t BSpin)
      | _ => None
      end
  | ONotify t c => (* locks.cfa:347-353; the notifier need not hold the lock *)
      if may_notify (ts s t) then
        match cq s c with
        | [] => Some s
        | x :: l => Some (on_notify (S_ (ih s) (q s) (oh s) (upd (cq s) c l) (ts s) (arr s) (gr s)) x)
        end
      else None
  end.
Inductive reach : st -> Prop :=
| r_init : reach init
| r_step s o s' : reach s -> step s o = Some s' -> reach s'.
