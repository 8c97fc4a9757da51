(* What POSIX asks of pthread_once. *)

From Coq Require Import List Arith.
From Verif.PthreadOnce Require Import Model.

(* How often the init routine of c was entered and left, as an observer of
   the trace of init routines counts them. *)
Definition begun (s : state) (c : nat) : nat := started s c.
Definition ended (s : state) (c : nat) : nat := finished s c.

(* No init routine calls pthread_once on the control it runs for, directly or
   through other init routines. *)
Definition not_reentrant (s : state) (l : label) : Prop :=
  match l with LCall t (Some c) _ => ~ In c (stack s t) | _ => True end.

Inductive nrun : state -> list (label * res) -> state -> Prop :=
  | nrun_nil : forall s, nrun s nil s
  | nrun_cons : forall s l r s1 tr s2, not_reentrant s l -> step s l = Ok s1 r -> nrun s1 tr s2 ->
      nrun s (cons (l, r) tr) s2.

Definition label_thread (l : label) : nat :=
  match l with LCall t _ _ | LGo t | LEnd t => t end.

Definition in_init (s : state) (t : nat) : Prop := stack s t <> nil.
Definition blocked (s : state) (t : nat) : Prop := exists c, modes s t = Wait c.

(* What a call that got past the checks of its arguments returns. *)
Definition returned (r : res) (c : nat) : Prop := r = RRet 0 c.
