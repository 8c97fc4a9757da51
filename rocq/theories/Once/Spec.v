(** call_once as an atomic history: the function starts once, ends, and only then calls return; exactly the call that ran
    it returns true. *)
From Coq Require Import List Bool Arith.
Import ListNotations.

Inductive ev := EStart (t : nat) | EEnd (t : nat) | ERet (t : nat) (b : bool).
(** [Complete o]: done; [o] is the thread whose call ran the function and has not yet returned. *)
Inductive sp := SNone | Running (t : nat) | Complete (o : option nat).
Definition snext (s : sp) (e : ev) : option sp :=
  match e, s with
  | EStart t, SNone => Some (Running t)
  | EEnd t, Running t' => if t =? t' then Some (Complete (Some t)) else None
  | ERet t true, Complete (Some t') => if t =? t' then Some (Complete None) else None
  | ERet t false, Complete o => Some (Complete o)
  | _, _ => None
  end.
(** Histories, latest event first. *)
Fixpoint legal (l : list ev) : option sp :=
  match l with [] => Some SNone | e :: l => match legal l with Some s => snext s e | None => None end end.

Definition is_start (e : ev) : bool := match e with EStart _ => true | _ => false end.
Definition is_ret (e : ev) : bool := match e with ERet _ _ => true | _ => false end.
Definition is_win (e : ev) : bool := match e with ERet _ b => b | _ => false end.
