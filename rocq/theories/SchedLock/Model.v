(** The scheduler's reader-writer lock: libcfa/src/concurrency/kernel/private.hfa:162-297 and kernel/cluster.cfa:74-193. One transition per atomic instruction,
    sequentially consistent memory, any number of threads, each with its own thread-local sched_lock. The memory of sched_lock disappears when
    its thread exits. Not modelled: the debug fields sched_id and in_sched_lock, preemption (disabled around all of this). *)
From Coq Require Import List Bool Arith.
Import ListNotations.
(** where a thread is; id is its cell *)
Inductive pc :=
  | Out | Gone
  (** register_proc_id, cluster.cfa:92-132: the scan 98-111 up to the value k of ready, load and compare-and-exchange of a cell; the check of alloc 113;
      fetch-and-add 116; the store 120; publishing 121-127 *)
  | RScan (i k : nat) | RCas (i k : nat) | RAlloc | RAdd | RStore (n : nat) | RPub (n : nat)
  | Idle (id : nat)
  (** ready_schedule_lock, private.hfa:226-250: step 1, the exchange and the loop of __atomic_acquire (162-172), the critical section *)
  | RdWait (id : nat) | RdAcq (id : nat) | RdSpin (id : nat) | Reading (id : nat)
  (** ready_mutate_lock, cluster.cfa:146-173: write_lock; load of ready; load of cell i of k; exchange on the lock of thread u and its loop; the critical section *)
  | WAcq (id : nat) | WSpin (id : nat) | WReady (id : nat) | WLoad (id i k : nat) | WXchg (id i k u : nat) | WTest (id i k u : nat) | Writing (id k : nat)
  (** ready_mutate_unlock, cluster.cfa:175-193 *)
  | ULoad (id i k : nat) | UStore (id i k u : nat) | UWrite (id : nat).
Inductive ending := Runs | Aborted | Fault.
Record state := S { max : nat; alloc : nat; ready : nat; wlock : bool; data : nat -> option nat; lk : nat -> bool; at_ : nat -> pc; ending_ : ending }.
Definition upd {X} (f : nat -> X) (i : nat) (x : X) : nat -> X := fun j => if j =? i then x else f j.
Definition goto (s : state) (t : nat) (p : pc) : state := S (max s) (alloc s) (ready s) (wlock s) (data s) (lk s) (upd (at_ s) t p) (ending_ s).
Definition set_cell (s : state) (i : nat) (x : option nat) : state := S (max s) (alloc s) (ready s) (wlock s) (upd (data s) i x) (lk s) (at_ s) (ending_ s).
Definition set_lk (s : state) (t : nat) (b : bool) : state := S (max s) (alloc s) (ready s) (wlock s) (data s) (upd (lk s) t b) (at_ s) (ending_ s).
Definition set_wlock (s : state) (b : bool) : state := S (max s) (alloc s) (ready s) b (data s) (lk s) (at_ s) (ending_ s).
Definition set_alloc (s : state) (n : nat) : state := S (max s) n (ready s) (wlock s) (data s) (lk s) (at_ s) (ending_ s).
Definition set_ready (s : state) (n : nat) : state := S (max s) (alloc s) n (wlock s) (data s) (lk s) (at_ s) (ending_ s).
Definition stop (s : state) (e : ending) : state := S (max s) (alloc s) (ready s) (wlock s) (data s) (lk s) (at_ s) e.
Definition gone (s : state) (t : nat) : bool := match at_ s t with Gone => true | _ => false end.
(** what a thread does when it has a choice *)
Inductive act := Register | Exit | Read | Write | Unregister | Go.
Definition step (s : state) (t : nat) (a : act) : option state :=
  match ending_ s with Aborted | Fault => None | Runs =>
  match at_ s t, a with
  | Out, Register => Some (goto s t (RScan 0 (ready s)))
  | Out, Exit => Some (goto s t Gone)
  | RScan i k, Go => Some (if i <? k then match data s i with None => goto s t (RCas i k) | Some _ => goto s t (RScan (i + 1) k) end else goto s t RAlloc)
  | RCas i k, Go => Some (match data s i with None => goto (set_cell s i (Some t)) t (Idle i) | Some _ => goto s t (RScan (i + 1) k) end)
  | RAlloc, Go => Some (if max s <=? alloc s then stop s Aborted else goto s t RAdd)
  | RAdd, Go => let n := alloc s in
      let s1 := set_alloc s (n + 1) in Some (if max s <=? n then stop s1 Aborted else goto s1 t (RStore n))
  | RStore n, Go => Some (goto (set_cell s n (Some t)) t (RPub n))
  | RPub n, Go => Some (if ready s =? n then goto (set_ready s (n + 1)) t (Idle n) else s)
  | Idle id, Read => Some (goto s t (RdWait id))
  | Idle id, Write => Some (goto s t (WAcq id))
  (** unregister_proc_id, cluster.cfa:134-142 *)
  | Idle id, Unregister => Some (goto (set_cell s id None) t Out)
  | RdWait id, Go => Some (if wlock s then s else goto s t (RdAcq id))
  | RdAcq id, Go => Some (if lk s t then goto s t (RdSpin id) else goto (set_lk s t true) t (Reading id))
  | RdSpin id, Go => Some (if lk s t then s else goto s t (RdAcq id))
  (** ready_schedule_unlock, private.hfa:252-263 *)
  | Reading id, Go => Some (goto (set_lk s t false) t (Idle id))
  | WAcq id, Go => Some (if wlock s then goto s t (WSpin id) else goto (set_wlock s true) t (WReady id))
  | WSpin id, Go => Some (if wlock s then s else goto s t (WAcq id))
  | WReady id, Go => Some (goto s t (WLoad id 0 (ready s)))
  | WLoad id i k, Go => Some (if i <? k then match data s i with Some u => goto s t (WXchg id i k u) | None => goto s t (WLoad id (i + 1) k) end
                              else goto s t (Writing id k))
  | WXchg id i k u, Go => Some (if gone s u then stop s Fault else if lk s u then goto s t (WTest id i k u) else goto (set_lk s u true) t (WLoad id (i + 1) k))
  | WTest id i k u, Go => Some (if gone s u then stop s Fault else if lk s u then s else goto s t (WXchg id i k u))
  | Writing id k, Go => Some (goto s t (ULoad id 0 k))
  | ULoad id i k, Go => Some (if i <? k then match data s i with Some u => goto s t (UStore id i k u) | None => goto s t (ULoad id (i + 1) k) end
                              else goto s t (UWrite id))
  | UStore id i k u, Go => Some (if gone s u then stop s Fault else goto (set_lk s u false) t (ULoad id (i + 1) k))
  | UWrite id, Go => Some (goto (set_wlock s false) t (Idle id))
  | _, _ => None
  end end.
(** the constructor, cluster.cfa:74-84: the array is not initialised *)
Definition start (m : nat) (junk : nat -> option nat) : state := S m 0 0 false junk (fun _ => false) (fun _ => Out) Runs.
Fixpoint run (s : state) (l : list (nat * act)) : option state :=
  match l with [] => Some s | (t, a) :: l => match step s t a with Some s1 => run s1 l | None => None end end.
