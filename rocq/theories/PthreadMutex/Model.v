(* Mutexes of the pthread layer: /repo/libcfa/src/concurrency/pthread.cfa,
   lines 102-119 (mutex_check), 412-455 (init, destroy, lock, unlock, trylock),
   and the simple_owner_lock inside: /repo/libcfa/src/concurrency/locks.hfa,
   lines 510-576.

   One mutex, any number of threads.  A step is one critical section of the
   spin lock inside, or one read or write outside of it.  [word] says whether
   the first word of the mutex, which mutex_check looks at, is non-zero: it is
   the low half of the first pointer of the list header, zero after
   PTHREAD_MUTEX_INITIALIZER and not zero once the list is set up.
   Simplifications: the spin lock is not itself reset (locks.hfa:524);
   recursion_count is an unbounded integer; the thread that is handed the lock
   returns from its call at once. *)

From Coq Require Import List Bool Arith ZArith.
Import ListNotations.

Inductive pc :=
  | Idle
  | Check2                 (* pthread.cfa:112, before lock( magic_mutex_check ) *)
  | Recheck                (* 113-114 *)
  | Init1 | Init2          (* 115: list set up, owner and recursion_count not yet *)
  | ToLock (try : bool)    (* before lock( *_lock ) *)
  | Wait (try : bool).     (* parked *)

Record state := mkS {
  word : bool;
  owner : option nat;
  rec : Z;                 (* recursion_count *)
  queue : list nat;        (* blocked_threads *)
  magic : option nat;      (* owner of magic_mutex_check *)
  pcs : nat -> pc;
  held : nat -> nat        (* not in the code: lock and trylock calls that
                              succeeded, less unlock calls that succeeded *)
}.

Definition upd {A} (f : nat -> A) (x : nat) (v : A) : nat -> A :=
  fun y => if Nat.eqb y x then v else f y.

Inductive label :=
  | LLock (t : nat) | LTry (t : nat) | LUnlock (t : nat) | LDestroy
  | LStep (t : nat).       (* t goes on in its call *)

Inductive res := ROk | REBusy | REPerm | RNone.
Inductive outcome := Ok (s : state) (r : res) | Undef | Stuck.

Definition set_pc s t p := mkS (word s) (owner s) (rec s) (queue s) (magic s) (upd (pcs s) t p) (held s).

Definition is_me (o : option nat) (t : nat) : bool :=
  match o with Some x => Nat.eqb x t | None => false end.
Definition is_none (o : option nat) : bool :=
  match o with Some _ => false | None => true end.

(* locks.hfa:533-550 lock( simple_owner_lock & ).  Appending to a list header
   that is all zero goes through a null pointer
   (/repo/libcfa/src/collections/list.hfa:220-243). *)
Definition do_lock (s : state) (t : nat) (try : bool) : outcome :=
  if is_me (owner s) t
  then Ok (mkS (word s) (owner s) (rec s + 1)%Z (queue s) (magic s) (upd (pcs s) t Idle)
               (upd (held s) t (S (held s t)))) ROk
  else if negb (is_none (owner s))
  then if word s
       then Ok (mkS (word s) (owner s) (rec s) (queue s ++ [t]) (magic s) (upd (pcs s) t (Wait try)) (held s)) RNone
       else Undef
  else Ok (mkS (word s) (Some t) 1 (queue s) (magic s) (upd (pcs s) t Idle)
               (upd (held s) t (S (held s t)))) ROk.

(* locks.hfa:552-564 pop_node: hand the lock to the first waiting thread. *)
Definition pop_node (s : state) : state :=
  match queue s with
  | [] => mkS (word s) None 0 [] (magic s) (pcs s) (held s)
  | u :: q => mkS (word s) (Some u) 1 q (magic s) (upd (pcs s) u Idle) (upd (held s) u (S (held s u)))
  end.

(* pthread.cfa:437-445 pthread_mutex_unlock, locks.hfa:566-576 unlock *)
Definition do_unlock (s : state) (t : nat) : outcome :=
  if negb (is_me (owner s) t) then Ok s REPerm
  else let s1 := mkS (word s) (owner s) (rec s - 1)%Z (queue s) (magic s) (pcs s)
                     (upd (held s) t (pred (held s t))) in
       Ok (if Z.eqb (rec s1) 0 then pop_node s1 else s1) ROk.

(* pthread.cfa:447-455 pthread_mutex_trylock, up to the call of lock *)
Definition do_try (s : state) (t : nat) : outcome :=
  if negb (is_me (owner s) t) && negb (is_none (owner s)) then Ok s REBusy
  else Ok (set_pc s t (ToLock true)) RNone.

(* pthread.cfa:419-427 pthread_mutex_destroy *)
Definition do_destroy (s : state) : outcome :=
  if negb (is_none (owner s)) then Ok s REBusy else Ok s ROk.

(* pthread.cfa:429-435 pthread_mutex_lock up to the first test of mutex_check
   (102-111) *)
Definition do_call_lock (s : state) (t : nat) : outcome :=
  if word s then Ok (set_pc s t (ToLock false)) RNone else Ok (set_pc s t Check2) RNone.

(* The rest of mutex_check (112-118) and of the constructor of
   simple_owner_lock (locks.hfa:523-528), then lock. *)
Definition do_step (s : state) (t : nat) : outcome :=
  match pcs s t with
  | Check2 =>
      match magic s with
      | None => Ok (mkS (word s) (owner s) (rec s) (queue s) (Some t) (upd (pcs s) t Recheck) (held s)) RNone
      | Some _ => Stuck
      end
  | Recheck =>
      if word s
      then Ok (mkS (word s) (owner s) (rec s) (queue s) None (upd (pcs s) t (ToLock false)) (held s)) RNone
      else Ok (mkS true (owner s) (rec s) [] (magic s) (upd (pcs s) t Init1) (held s)) RNone
  | Init1 => Ok (mkS (word s) None (rec s) (queue s) (magic s) (upd (pcs s) t Init2) (held s)) RNone
  | Init2 => Ok (mkS (word s) (owner s) 0 (queue s) None (upd (pcs s) t (ToLock false)) (held s)) RNone
  | ToLock b => do_lock s t b
  | Idle | Wait _ => Stuck
  end.

Definition step (s : state) (l : label) : outcome :=
  match l with
  | LLock t => match pcs s t with Idle => do_call_lock s t | _ => Stuck end
  | LTry t => match pcs s t with Idle => do_try s t | _ => Stuck end
  | LUnlock t => match pcs s t with Idle => do_unlock s t | _ => Stuck end
  | LDestroy => do_destroy s
  | LStep t => do_step s t
  end.

(* After pthread_mutex_init (w = true), after PTHREAD_MUTEX_INITIALIZER
   (w = false). *)
Definition start (w : bool) : state :=
  mkS w None 0 [] None (fun _ => Idle) (fun _ => 0).

Inductive run : state -> list (label * res) -> state -> Prop :=
  | run_nil : forall s, run s [] s
  | run_cons : forall s l r s1 tr s2, step s l = Ok s1 r -> run s1 tr s2 -> run s ((l, r) :: tr) s2.

(* Executes a list of labels; for the examples. *)
Fixpoint exec (s : state) (ls : list label) : outcome :=
  match ls with
  | [] => Ok s RNone
  | l :: ls' => match step s l with Ok s1 _ => exec s1 ls' | o => o end
  end.
