(** libcfa/src/concurrency/locks.cfa:57-184 (blocking_lock: lock, try_lock, unlock, pop_node, on_notify, on_wait, on_wakeup),
    244-281 (time-outs) and 312-446 (cond_lock: wait, notify_one, notify_all), one blocking_lock used with any number of
    condition variables. One transition per critical section of the lock's or the condition variable's spin lock.
    Parking is [Verif.Park]: a thread that is unparked continues. simple_owner_lock (libcfa/src/concurrency/locks.hfa:510-611) is the same code without the wait count; its [lock] tests
    [owner == active_thread()] outside the spin lock, which only the thread itself can make true or false.
    Left out: waituntil registration
    (locks.cfa:186-242), waits without a lock, the shadow information, unlocking by a thread that is not the owner
    (a verification error for owner_lock, locks.cfa:132), memory management of the nodes. *)
From Coq Require Import List Bool Arith.
Import ListNotations.

(** What a thread is doing: running (or parked elsewhere); blocked in [lock]; in [wait] on condition c: enqueued on the
    condition but the lock not yet released / lock released and parked; notified and queued on the lock; owner again,
    about to execute [on_wakeup]. [r]: saved recursion count; [b]: signalled (true) or timed out. *)
Inductive tst := TRun | TLock | TW1 (c : nat) | TW2 (c r : nat) | TWQ (r : nat) (b : bool) | TWake (r : nat) (b : bool).

Record st := S_ {
  owner : option nat;
  rc : nat;                      (* recursion_count *)
  q : list nat;                  (* blocked_threads, front first *)
  wc : nat;                      (* wait_count *)
  cq : nat -> list nat;          (* blocked_threads of each cond_lock *)
  ts : nat -> tst;
  bad : bool;                    (* on_notify used a link_node that was not set up for this wait: undefined *)
  d : nat -> nat;                (* ghost: how many acquisitions the thread holds, as it counts itself *)
  arr : list nat;                (* ghost: threads in the order they queued for the lock *)
  gr : list nat;                 (* ghost: threads in the order the lock was handed to them from the queue *)
  nots : list (nat * bool);      (* ghost: removals from condition queues: thread, by notify (true) or time-out *)
  rets : list (nat * bool)       (* ghost: returns from wait: thread, result *)
}.
(** locks.cfa:57-66, 319-323. *)
Definition init : st := S_ None 0 [] 0 (fun _ => []) (fun _ => TRun) false (fun _ => 0) [] [] [] [].

Definition upd {A} (f : nat -> A) (i : nat) (x : A) : nat -> A := fun j => if j =? i then x else f j.
Definition is_owner (s : st) (t : nat) : bool := match owner s with Some o => o =? t | None => false end.

Definition set_lock (s : st) (o : option nat) (r : nat) (l : list nat) (w : nat) (f : nat -> tst) (dd : nat -> nat) (a g : list nat) : st :=
  S_ o r l w (cq s) f (bad s) dd a g (nots s) (rets s).

(** locks.cfa:71-91. [multi]: multi_acquisition. *)
Definition lock (multi : bool) (s : st) (t : nat) : st :=
  match owner s with
  | Some o =>
      if o =? t then
        if multi then set_lock s (owner s) (S (rc s)) (q s) (wc s) (ts s) (upd (d s) t (S (d s t))) (arr s) (gr s)
        else set_lock s (Some t) 1 (q s) (wc s) (ts s) (upd (d s) t (S (d s t))) (arr s) (gr s)
      else set_lock s (owner s) (rc s) (q s ++ [t]) (S (wc s)) (upd (ts s) t TLock) (d s) (arr s ++ [t]) (gr s)
  | None => set_lock s (Some t) 1 (q s) (wc s) (ts s) (upd (d s) t 1) (arr s) (gr s)
  end.
(** locks.cfa:93-111. *)
Definition try_lock (multi : bool) (s : st) (t : nat) : st * bool :=
  match owner s with
  | None => (set_lock s (Some t) 1 (q s) (wc s) (ts s) (upd (d s) t 1) (arr s) (gr s), true)
  | Some o =>
      if (o =? t) && multi then (set_lock s (owner s) (S (rc s)) (q s) (wc s) (ts s) (upd (d s) t (S (d s t))) (arr s) (gr s), true)
      else (s, false)
  end.
(** locks.cfa:113-127: hand the lock to the first queued thread, or free it. The thread is unparked: it returns from
    [lock], or continues in [wait]. *)
Definition pop_node (s : st) : st :=
  match q s with
  | x :: l =>
      let (k, dx) := match ts s x with TWQ r b => (TWake r b, d s x) | _ => (TRun, 1) end in
      set_lock s (Some x) 1 l (pred (wc s)) (upd (ts s) x k) (upd (d s) x dx) (arr s) (gr s ++ [x])
  | [] => set_lock s None 0 [] (wc s) (ts s) (d s) (arr s) (gr s)
  end.
(** locks.cfa:129-142. *)
Definition unlock (s : st) (t : nat) : st :=
  let s1 := set_lock s (owner s) (pred (rc s)) (q s) (wc s) (ts s) (upd (d s) t (pred (d s t))) (arr s) (gr s) in
  if rc s1 =? 0 then pop_node s1 else s1.
(** locks.cfa:148-162, for thread t removed from a condition queue, [b] as above. *)
Definition on_notify (s : st) (t : nat) (b : bool) : st :=
  let ns := nots s ++ [(t, b)] in
  match ts s t with
  | TW2 _ r =>
      match owner s with
      | Some _ => S_ (owner s) (rc s) (q s ++ [t]) (S (wc s)) (cq s) (upd (ts s) t (TWQ r b)) (bad s) (d s) (arr s ++ [t]) (gr s) ns (rets s)
      | None => S_ (Some t) 1 (q s) (wc s) (cq s) (upd (ts s) t (TWake r b)) (bad s) (d s) (arr s) (gr s) ns (rets s)
      end
  | _ => (* link_node is null or that of an earlier wait *)
      S_ (owner s) (rc s) (q s) (wc s) (cq s) (ts s) true (d s) (arr s) (gr s) ns (rets s)
  end.
(** locks.cfa:387-390 with 363-367: [wait], first part: enqueue on the condition. *)
Definition wait1 (s : st) (t c : nat) : st :=
  S_ (owner s) (rc s) (q s) (wc s) (upd (cq s) c (cq s c ++ [t])) (upd (ts s) t (TW1 c)) (bad s) (d s) (arr s) (gr s) (nots s) (rets s).
(** locks.cfa:164-180 on_wait: save the recursion count, give the lock up whatever it was, park. *)
Definition wait2 (s : st) (t c : nat) : st :=
  let s1 := pop_node s in
  set_lock s1 (owner s1) (rc s1) (q s1) (wc s1) (upd (ts s1) t (TW2 c (rc s))) (upd (d s1) t 0) (arr s1) (gr s1).
(** locks.cfa:182-184 on_wakeup; [wait] returns [signalled]. *)
Definition wakeup (s : st) (t r : nat) (b : bool) : st :=
  S_ (owner s) r (q s) (wc s) (cq s) (upd (ts s) t TRun) (bad s) (upd (d s) t r) (arr s) (gr s) (nots s) (rets s ++ [(t, b)]).
(** locks.cfa:325-345: notify_one removes and processes the first. *)
Definition set_cq (s : st) (c : nat) (l : list nat) : st :=
  S_ (owner s) (rc s) (q s) (wc s) (upd (cq s) c l) (ts s) (bad s) (d s) (arr s) (gr s) (nots s) (rets s).
Definition notify_one (s : st) (c : nat) : st * bool :=
  match cq s c with
  | [] => (s, false)
  | x :: l => (on_notify (set_cq s c l) x true, true)
  end.
(** locks.cfa:347-355. *)
Fixpoint notify_list (s : st) (c : nat) (l : list nat) : st :=
  match l with
  | [] => s
  | x :: r => notify_list (on_notify (set_cq s c r) x true) c r
  end.
Definition notify_all (s : st) (c : nat) : st * bool :=
  (notify_list s c (cq s c), match cq s c with [] => false | _ => true end).
(** locks.cfa:260-281 timeout_handler: the alarm of thread t's wait goes off (registered just before parking,
    locks.cfa:372, 412). *)
Definition timeout (s : st) (t c : nat) : st :=
  if existsb (Nat.eqb t) (cq s c) then on_notify (set_cq s c (filter (fun x => negb (x =? t)) (cq s c))) t false else s.

Inductive op := OLock (t : nat) | OTry (t : nat) | OUnlock (t : nat) | OWait (t c : nat) | ORelease (t : nat) | OWakeup (t : nat)
  | ONotify (t c : nat) | ONotifyAll (t c : nat) | OTimeout (t c : nat).

(** Relocking a single-acquisition lock by its holder is a verification error (locks.cfa:76) and excluded here.
    [hold]: whether notifying threads always hold the lock. *)
Definition step (multi hold : bool) (s : st) (o : op) : option st :=
  match o with
  | OLock t => match ts s t with TRun => if multi || negb (is_owner s t) then Some (lock multi s t) else None | _ => None end
  | OTry t => match ts s t with TRun => Some (fst (try_lock multi s t)) | _ => None end
  | OUnlock t => match ts s t with TRun => if is_owner s t then Some (unlock s t) else None | _ => None end
  | OWait t c => match ts s t with TRun => if is_owner s t then Some (wait1 s t c) else None | _ => None end
  | ORelease t => match ts s t with TW1 c => Some (wait2 s t c) | _ => None end
  | OWakeup t => match ts s t with TWake r b => Some (wakeup s t r b) | _ => None end
  | ONotify t c => match ts s t with TRun => if is_owner s t || negb hold then Some (fst (notify_one s c)) else None | _ => None end
  | ONotifyAll t c => match ts s t with TRun => if is_owner s t || negb hold then Some (fst (notify_all s c)) else None | _ => None end
  | OTimeout t c => match ts s t with TW1 _ => None | _ => Some (timeout s t c) end
  end.

Inductive reach (multi hold : bool) : st -> Prop :=
| r0 : reach multi hold init
| rS s o s' : reach multi hold s -> step multi hold s o = Some s' -> reach multi hold s'.
