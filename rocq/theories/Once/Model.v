(** libcfa/src/concurrency/once.hfa:22-121 (call_once) and libcfa/src/collections/lockfree.hfa:130-194 (poison_list), any
    number of callers, one transition per atomic instruction, sequentially consistent memory (the relaxed accesses are
    to fields ordered by the sequentially consistent ones). Parking and unparking by the ticket operations of
    [Verif.Park.Model]; next(thread) is the thread's user_link.next (invoke.h:263-265). Debug verifications are left out
    (see the theorem on READY). *)
From Coq Require Import ZArith List Bool Arith.
From Verif.Park Require Import Model.
From Verif.Once Require Import Spec.
Import ListNotations.
Open Scope nat_scope.

(** thread pointers: 0p, 1p, thread t *)
Inductive tp := N0 | N1 | NT (t : nat).
Definition tp_eqb (a b : tp) : bool :=
  match a, b with N0, N0 | N1, N1 => true | NT i, NT j => i =? j | _, _ => false end.
(** once.hfa:22-26 *)
Inductive fstate := FArmed | FInProgress | FReady.

(** Program points of a caller: outside; about to CAS the state (once.hfa:98); won: about to call the function
    (once.hfa:50), in it, about to store the state (once.hfa:56), to poison (once.hfa:59), in the wake-up loop with
    [sleeper] at [advance] (once.hfa:64-66), about to unpark (once.hfa:69); lost: in [push] about to store next
    (lockfree.hfa:150), to read head (153), to CAS (159), to store next (168); about to park (once.hfa:41), parked. *)
Inductive opc := OIdle | OTry | OWin | OFunc | OStore | OPoison | OWalk (p : tp) | OUnpark (t : nat) (nx : tp)
  | OPush | OPushR | OPushC (e : tp) | OPushN (e : tp) | OPark | OBlocked.

Record st := S_ {
  fs : fstate;
  head : tp;
  next : nat -> tp;
  tick : nat -> Z;
  pc : nat -> opc;
  ab : bool;        (* a park/unpark mismatch aborted *)
  log : list ev     (* ghost *)
}.
(** once.hfa:34, lockfree.hfa:140; threads start with a null link (thread.cfa:47-53). *)
Definition init : st := S_ FArmed N0 (fun _ => N0) (fun _ => RUNNING) (fun _ => OIdle) false [].

Definition upd {A} (f : nat -> A) (i : nat) (x : A) : nat -> A := fun j => if j =? i then x else f j.
Definition goto (s : st) (t : nat) (p : opc) : st := S_ (fs s) (head s) (next s) (tick s) (upd (pc s) t p) (ab s) (log s).
Definition emit (s : st) (e : ev) : st := S_ (fs s) (head s) (next s) (tick s) (pc s) (ab s) (e :: log s).
(** returning from call_once *)
Definition ret (s : st) (t : nat) (b : bool) : st := emit (goto s t OIdle) (ERet t b).

(** [spur]: the weak compare-and-exchange of lockfree.hfa:159 fails spuriously this time. *)
Definition step (s : st) (t : nat) (spur : bool) : option st :=
  match pc s t with
  (* call_once, once.hfa:90-93 *)
  | OIdle => match fs s with FReady => Some (ret s t false) | _ => Some (goto s t OTry) end
  (* once.hfa:96-98 *)
  | OTry => match fs s with
      | FArmed => Some (S_ FInProgress (head s) (next s) (tick s) (upd (pc s) t OWin) (ab s) (log s))
      | _ => Some (goto s t OPush)
      end
  (* once_call$, once.hfa:45-74 *)
  | OWin => Some (emit (goto s t OFunc) (EStart t))
  | OFunc => Some (emit (goto s t OStore) (EEnd t))
  | OStore => Some (S_ FInProgress (head s) (next s) (tick s) (upd (pc s) t OPoison) (ab s) (log s))
  | OPoison => Some (S_ (fs s) N1 (next s) (tick s) (upd (pc s) t (OWalk (head s))) (ab s) (log s))
  | OWalk p => match p with
      | N0 => Some (ret s t true)
      | NT u => match next s u with N1 => Some s | x => Some (goto s t (OUnpark u x)) end
      | N1 => None
      end
  | OUnpark u nx =>
      let (k, r) := unpark_add (tick s u) in
      let s' := S_ (fs s) (head s) (next s) (upd (tick s) u k) (upd (pc s) t (OWalk nx)) (ab s) (log s) in
      match r with
      | AlreadyAwake => Some s'
      | Schedule => Some (ret s' u false)
      | AddAbort => Some (S_ (fs s) (head s) (next s) (upd (tick s) u k) (upd (pc s) t (OWalk nx)) true (log s))
      end
  (* once_wait$, once.hfa:36-43; push, lockfree.hfa:148-172 *)
  | OPush => Some (S_ (fs s) (head s) (upd (next s) t N1) (tick s) (upd (pc s) t OPushR) (ab s) (log s))
  | OPushR => match head s with N1 => Some (ret s t false) | e => Some (goto s t (OPushC e)) end
  | OPushC e =>
      if tp_eqb (head s) e && negb spur then
        Some (S_ (fs s) (NT t) (next s) (tick s) (upd (pc s) t (OPushN e)) (ab s) (log s))
      else match head s with N1 => Some (ret s t false) | e' => Some (goto s t (OPushC e')) end
  | OPushN e => Some (S_ (fs s) (head s) (upd (next s) t e) (tick s) (upd (pc s) t OPark) (ab s) (log s))
  | OPark =>
      let (k, r) := park_sub (tick s t) in
      let s' := S_ (fs s) (head s) (next s) (upd (tick s) t k) (pc s) (ab s) (log s) in
      match r with
      | Leave => Some (goto s' t OBlocked)
      | RunAgain => Some (ret s' t false)
      | SubAbort => Some (S_ (fs s) (head s) (next s) (upd (tick s) t k) (pc s) true (log s))
      end
  | OBlocked => None
  end.

Inductive reach : st -> Prop :=
| r0 : reach init
| rS s t b s' : reach s -> step s t b = Some s' -> reach s'.
