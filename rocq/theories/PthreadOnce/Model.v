(* pthread_once: /repo/libcfa/src/concurrency/pthread.cfa, lines 500-511, with
   the lock once_lock (line 27), a simple_owner_lock,
   /repo/libcfa/src/concurrency/locks.hfa, lines 533-576.

   Any number of threads and of control variables.  A step is one critical
   section of the spin lock inside once_lock, together with the code up to the
   next one.  An init routine may call pthread_once itself.  Simplifications:
   recursion_count does not overflow; a control variable is 0 or 1. *)

From Coq Require Import List Bool Arith.
Import ListNotations.

Inductive mode :=
  | Run                               (* outside, or inside an init routine *)
  | Wait (c : nat)                    (* parked in lock(once_lock) *)
  | Got (c : nat).                    (* has the lock, has not looked at c yet *)

Record state := mkS {
  owner : option nat;
  rec : nat;
  queue : list nat;
  flag : nat -> bool;                 (* the control variable is 1 *)
  modes : nat -> mode;
  stack : nat -> list nat;            (* the init routines a thread is in, by control *)
  started : nat -> nat;               (* not in the code: init routines entered *)
  finished : nat -> nat               (* not in the code: init routines left *)
}.

Definition upd {A} (f : nat -> A) (x : nat) (v : A) : nat -> A :=
  fun y => if Nat.eqb y x then v else f y.

Definition set_lock s o r q := mkS o r q (flag s) (modes s) (stack s) (started s) (finished s).
Definition set_mode s t m := mkS (owner s) (rec s) (queue s) (flag s) (upd (modes s) t m) (stack s) (started s) (finished s).

Inductive label :=
  | LCall (t : nat) (control : option nat) (init : bool)   (* None, false: null pointers *)
  | LGo (t : nat)                     (* t, which got the lock, goes on *)
  | LEnd (t : nat).                   (* the init routine t is in returns *)

(* RRet n c: pthread_once on c returned n; RErr n: it returned n before looking
   at any control; RNone: it has not returned. *)
Inductive res := RRet (n : nat) (c : nat) | RErr (n : nat) | RNone.

Inductive outcome := Ok (s : state) (r : res) | Stuck.

Definition is_me (o : option nat) (t : nat) : bool :=
  match o with Some x => Nat.eqb x t | None => false end.

(* locks.hfa:533-550 *)
Definition lock (s : state) (t c : nat) : state :=
  if is_me (owner s) t then set_mode (set_lock s (owner s) (S (rec s)) (queue s)) t (Got c)
  else match owner s with
       | Some _ => set_mode (set_lock s (owner s) (rec s) (queue s ++ [t])) t (Wait c)
       | None => set_mode (set_lock s (Some t) 1 (queue s)) t (Got c)
       end.

(* locks.hfa:552-564 *)
Definition pop_node (s : state) : state :=
  match queue s with
  | [] => set_lock s None 0 []
  | u :: q => set_mode (set_lock s (Some u) 1 q) u
                       (match modes s u with Wait c => Got c | m => m end)
  end.

(* locks.hfa:566-576 *)
Definition unlock (s : state) : state :=
  let s1 := set_lock s (owner s) (pred (rec s)) (queue s) in
  if Nat.eqb (rec s1) 0 then pop_node s1 else s1.

(* pthread.cfa:502-504; EINVAL is 22 *)
Definition call (s : state) (t : nat) (control : option nat) (init : bool) : outcome :=
  match control with
  | None => Ok s (RErr 22)
  | Some c => if negb init then Ok s (RErr 22) else Ok (lock s t c) RNone
  end.

(* pthread.cfa:505-506, 509-510 *)
Definition go (s : state) (t c : nat) : outcome :=
  if flag s c then Ok (unlock (set_mode s t Run)) (RRet 0 c)
  else Ok (mkS (owner s) (rec s) (queue s) (flag s) (upd (modes s) t Run) (upd (stack s) t (c :: stack s t))
               (upd (started s) c (S (started s c))) (finished s)) RNone.

(* pthread.cfa:507-510 *)
Definition finish (s : state) (t c : nat) (st : list nat) : outcome :=
  Ok (unlock (mkS (owner s) (rec s) (queue s) (upd (flag s) c true) (modes s) (upd (stack s) t st)
                  (started s) (upd (finished s) c (S (finished s c))))) (RRet 0 c).

Definition step (s : state) (l : label) : outcome :=
  match l with
  | LCall t c i => match modes s t with Run => call s t c i | _ => Stuck end
  | LGo t => match modes s t with Got c => go s t c | _ => Stuck end
  | LEnd t => match modes s t, stack s t with Run, c :: st => finish s t c st | _, _ => Stuck end
  end.

(* PTHREAD_ONCE_INIT is 0. *)
Definition start : state :=
  mkS None 0 [] (fun _ => false) (fun _ => Run) (fun _ => []) (fun _ => 0) (fun _ => 0).

Inductive run : state -> list (label * res) -> state -> Prop :=
  | run_nil : forall s, run s [] s
  | run_cons : forall s l r s1 tr s2, step s l = Ok s1 r -> run s1 tr s2 -> run s ((l, r) :: tr) s2.

(* Executes a list of labels; for the examples. *)
Fixpoint exec (s : state) (ls : list label) : outcome :=
  match ls with
  | [] => Ok s RNone
  | l :: ls' => match step s l with Ok s1 _ => exec s1 ls' | o => o end
  end.
