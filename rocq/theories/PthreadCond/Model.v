(* Condition variables of the pthread layer:
   /repo/libcfa/src/concurrency/pthread.cfa, lines 460-494, on top of
   pthread_cond_var, /repo/libcfa/src/concurrency/locks.cfa, lines 286-316,
   384-392 and 494-583, and simple_owner_lock,
   /repo/libcfa/src/concurrency/locks.hfa, lines 510-611.

   One condition variable, one mutex that has been initialised, any number of
   threads.  A step is one critical section of a spin lock.  Times are in
   nanoseconds.  Simplifications: recursion_count does not overflow; one clock
   stands for CLOCK_REALTIME (the deadline) and CLOCK_MONOTONIC_RAW (the alarm),
   both running at the same pace; a thread that is handed the mutex goes on at
   once, including its on_wakeup. *)

From Coq Require Import List Bool Arith ZArith.
Import ListNotations.

Inductive pc :=
  | Idle
  | LockWait                          (* parked in lock *)
  | Enq (dl : option Z)               (* on the condition's list, mutex not yet given up *)
  | CondWait (dl : option Z) (sv : nat)  (* parked; alarm at dl; recursion count to restore *)
  | ReLock (sv : nat).                (* woken, on the list of the mutex *)

Record state := mkS {
  ready : bool;                       (* the condition's list header is set up *)
  owner : option nat;
  rec : nat;
  queue : list nat;                   (* mutex: blocked_threads *)
  cond : list nat;                    (* condition: blocked_threads *)
  pcs : nat -> pc;
  signalled : nat -> bool;
  now : Z;
  held : nat -> nat;                  (* not in the code: how often t has locked *)
  timed : nat -> option Z             (* not in the code: the abstime of the last wait *)
}.

Definition upd {A} (f : nat -> A) (x : nat) (v : A) : nat -> A :=
  fun y => if Nat.eqb y x then v else f y.

(* The last list of arguments of mkS is long; these replace single fields. *)
Definition set_lock s o r q := mkS (ready s) o r q (cond s) (pcs s) (signalled s) (now s) (held s) (timed s).
Definition set_cond s c := mkS (ready s) (owner s) (rec s) (queue s) c (pcs s) (signalled s) (now s) (held s) (timed s).
Definition set_pc s t p := mkS (ready s) (owner s) (rec s) (queue s) (cond s) (upd (pcs s) t p) (signalled s) (now s) (held s) (timed s).
Definition set_held s t n := mkS (ready s) (owner s) (rec s) (queue s) (cond s) (pcs s) (signalled s) (now s) (upd (held s) t n) (timed s).
Definition set_sig s t b := mkS (ready s) (owner s) (rec s) (queue s) (cond s) (pcs s) (upd (signalled s) t b) (now s) (held s) (timed s).

Inductive label :=
  | LLock (t : nat) | LUnlock (t : nat)
  | LWait (t : nat) (abs : option Z)  (* pthread_cond_wait / pthread_cond_timedwait *)
  | LBlock (t : nat)                  (* on_wait, still in that call *)
  | LSignal (t : nat) | LBroadcast (t : nat)
  | LAlarm (t : nat)                  (* the alarm of t's wait *)
  | LTick (d : nat).

(* RInt n: the call returns n; RNone: it has not returned yet. *)
Inductive res := RInt (n : nat) | RNone.
Inductive outcome := Ok (s : state) (r : res) | Undef | Stuck.

Definition is_me (o : option nat) (t : nat) : bool :=
  match o with Some x => Nat.eqb x t | None => false end.

(* u is made owner (locks.hfa:556-557, 586-588) and goes on (locks.hfa:611). *)
Definition grant (s : state) (u : nat) : state :=
  let n := match pcs s u with ReLock sv | CondWait _ sv => sv | _ => 1 end in
  set_held (set_pc (set_lock s (Some u) n (queue s)) u Idle) u n.

(* locks.hfa:552-564 *)
Definition pop_node (s : state) : state :=
  match queue s with
  | [] => set_lock s None 0 []
  | u :: q => grant (set_lock s (owner s) (rec s) q) u
  end.

(* locks.hfa:533-550 *)
Definition do_lock (s : state) (t : nat) : outcome :=
  if is_me (owner s) t
  then Ok (set_held (set_lock s (owner s) (S (rec s)) (queue s)) t (S (held s t))) (RInt 0)
  else match owner s with
       | Some _ => Ok (set_pc (set_lock s (owner s) (rec s) (queue s ++ [t])) t LockWait) RNone
       | None => Ok (grant s t) (RInt 0)
       end.

(* pthread.cfa:437-445, locks.hfa:566-576; EPERM is 1 *)
Definition do_unlock (s : state) (t : nat) : outcome :=
  if negb (is_me (owner s) t) then Ok s (RInt 1)
  else let s1 := set_held (set_lock s (owner s) (pred (rec s)) (queue s)) t (pred (held s t)) in
       Ok (if Nat.eqb (rec s1) 0 then pop_node s1 else s1) (RInt 0).

(* locks.cfa:567-575 getDuration *)
Definition get_duration (cur wait_until : Z) : Z :=
  if (wait_until <=? cur)%Z then (cur - wait_until)%Z else 0%Z.

(* locks.cfa:550-560 and 530-544, the first half of wait: enter the list, and
   for a timed wait set up the alarm (alarm.cfa:70-77: deadline = time now +
   duration).  An all-zero list header: list.hfa:220-243 writes through NULL. *)
Definition do_wait (s : state) (t : nat) (abs : option Z) : outcome :=
  if negb (is_me (owner s) t) then Undef          (* verifyf in on_wait *)
  else if negb (ready s) then Undef
  else let dl := match abs with None => None | Some a => Some (now s + get_duration (now s) a)%Z end in
       Ok (mkS (ready s) (owner s) (rec s) (queue s) (cond s ++ [t]) (upd (pcs s) t (Enq dl)) (signalled s)
               (now s) (held s) (upd (timed s) t abs)) RNone.

(* locks.hfa:593-609 on_wait: give the mutex up and park. *)
Definition do_block (s : state) (t : nat) (dl : option Z) : outcome :=
  Ok (pop_node (set_held (set_pc s t (CondWait dl (rec s))) t 0)) RNone.

(* locks.hfa:578-591 on_notify.  Undef: link_node, which on_wait sets, is not
   set yet (locks.hfa:582, 603). *)
Definition on_notify (s : state) (t : nat) : option state :=
  match owner s with
  | Some _ =>
      match pcs s t with
      | CondWait _ sv => Some (set_pc (set_lock s (owner s) (rec s) (queue s ++ [t])) t (ReLock sv))
      | _ => None
      end
  | None => Some (grant s t)
  end.

(* locks.cfa:503-513 notify_one; pthread.cfa:480-483 returns its bool *)
Definition do_signal (s : state) : outcome :=
  match cond s with
  | [] => Ok s (RInt 0)
  | t :: c =>
      match on_notify (set_sig (set_cond s c) t true) t with
      | Some s1 => Ok s1 (RInt 1)
      | None => Undef
      end
  end.

(* locks.cfa:515-525 notify_all; pthread.cfa:485-488 returns its bool *)
Fixpoint notify_list (s : state) (l : list nat) : option state :=
  match l with
  | [] => Some s
  | t :: l' =>
      match on_notify (set_sig (set_cond s l') t true) t with
      | Some s1 => notify_list s1 l'
      | None => None
      end
  end.

Definition do_broadcast (s : state) : outcome :=
  match notify_list s (cond s) with
  | Some s1 => Ok s1 (RInt (match cond s with [] => 0 | _ => 1 end))
  | None => Undef
  end.

(* locks.cfa:300-313 timeout_handler *)
Definition do_alarm (s : state) (t : nat) : outcome :=
  if existsb (Nat.eqb t) (cond s)
  then match on_notify (set_sig (set_cond s (remove Nat.eq_dec t (cond s))) t false) t with
       | Some s1 => Ok s1 RNone
       | None => Undef
       end
  else Ok s RNone.

Definition step (s : state) (l : label) : outcome :=
  match l with
  | LLock t => match pcs s t with Idle => do_lock s t | _ => Stuck end
  | LUnlock t => match pcs s t with Idle => do_unlock s t | _ => Stuck end
  | LWait t a => match pcs s t with Idle => do_wait s t a | _ => Stuck end
  | LBlock t => match pcs s t with Enq dl => do_block s t dl | _ => Stuck end
  | LSignal t => match pcs s t with Idle => do_signal s | _ => Stuck end
  | LBroadcast t => match pcs s t with Idle => do_broadcast s | _ => Stuck end
  | LAlarm t => match pcs s t with
                | CondWait (Some dl) _ => if (dl <=? now s)%Z then do_alarm s t else Stuck
                | _ => Stuck
                end
  | LTick d => Ok (mkS (ready s) (owner s) (rec s) (queue s) (cond s) (pcs s) (signalled s)
                       (now s + Z.of_nat d)%Z (held s) (timed s)) RNone
  end.

(* pthread.cfa:469-478: the result of pthread_cond_wait and
   pthread_cond_timedwait, whether signalled or not. *)
Definition wait_result (signalled : bool) : nat := 0.

(* After pthread_cond_init (r = true), after PTHREAD_COND_INITIALIZER
   (r = false). *)
Definition start (r : bool) (t0 : Z) : state :=
  mkS r None 0 [] [] (fun _ => Idle) (fun _ => false) t0 (fun _ => 0) (fun _ => None).

Inductive run : state -> list (label * res) -> state -> Prop :=
  | run_nil : forall s, run s [] s
  | run_cons : forall s l r s1 tr s2, step s l = Ok s1 r -> run s1 tr s2 -> run s ((l, r) :: tr) s2.

(* Executes a list of labels; for the examples. *)
Fixpoint exec (s : state) (ls : list label) : outcome :=
  match ls with
  | [] => Ok s RNone
  | l :: ls' => match step s l with Ok s1 _ => exec s1 ls' | o => o end
  end.
