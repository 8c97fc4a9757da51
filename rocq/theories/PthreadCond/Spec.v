(* What POSIX asks of condition variables. *)

From Coq Require Import List Arith ZArith.
From Verif.PthreadCond Require Import Model.

Definition exclusive (s : state) : Prop :=
  forall t u, 0 < held s t -> 0 < held s u -> t = u.

(* t waits for the condition; t waits to get the mutex back. *)
Definition cond_waits (s : state) (t : nat) : Prop :=
  match pcs s t with Enq _ | CondWait _ _ => True | _ => False end.
Definition relocks (s : state) (t : nat) : Prop :=
  match pcs s t with ReLock _ => True | _ => False end.
Definition runs (s : state) (t : nat) : Prop := pcs s t = Idle.

(* When a wait with deadline [abs] that starts at [cur] should time out. *)
Definition due (cur abs : Z) : Z := Z.max cur abs.

(* ETIMEDOUT after a timeout, 0 after a signal. *)
Definition posix_wait_result (signalled : bool) : nat := if signalled then 0 else 110.

(* A signal comes from the thread that holds the mutex. *)
Definition mannered (s : state) (l : label) : Prop :=
  match l with
  | LSignal t | LBroadcast t => owner s = Some t
  | LWait t _ => owner s = Some t
  | _ => True
  end.

Inductive mrun : state -> list (label * res) -> state -> Prop :=
  | mrun_nil : forall s, mrun s nil s
  | mrun_cons : forall s l r s1 tr s2, mannered s l -> step s l = Ok s1 r -> mrun s1 tr s2 ->
      mrun s (cons (l, r) tr) s2.
