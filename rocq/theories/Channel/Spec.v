(** Observations on channel traces. *)
From Coq Require Import List Bool Arith.
From Verif.Channel Require Import Model.
Import ListNotations.
Section S.
Context {T : Type}.
Definition puts (l : list (ev T)) : list (option T) := flat_map (fun e => match e with Put _ _ v => [Some v] | _ => [] end) l.
Definition gots (l : list (ev T)) : list (option T) := flat_map (fun e => match e with Got _ _ v => [v] | _ => [] end) l.
(** plain threads queued as producers (with their element) / consumers, in order; and those resumed, in order *)
Definition blockedP (l : list (ev T)) := flat_map (fun e => match e with BlockP false i v => [(i, Some v)] | _ => [] end) l.
Definition resumedP (l : list (ev T)) := flat_map (fun e => match e with Put (Queued false) i v => [(i, Some v)] | ShutP false i v => [(i, Some v)] | _ => [] end) l.
Definition blockedC (l : list (ev T)) := flat_map (fun e => match e with BlockC false i => [i] | _ => [] end) l.
Definition resumedC (l : list (ev T)) := flat_map (fun e => match e with Got (Queued false) i _ => [i] | ShutC false i => [i] | _ => [] end) l.
Definition plainP (q : list (node T)) := flat_map (fun n => if isor n then [] else [(who n, Some (pay n))]) q.
Definition plainC (q : list (node unit)) := flat_map (fun n => if isor n then [] else [who n]) q.
(** clauses of OR waituntil i completed (or woken because the channel closed) *)
Definition completions (i : nat) (l : list (ev T)) : nat :=
  length (filter (fun e => match e with
    | Put (Queued true) j _ | Got (Queued true) j _ | Put (Self true) j _ | Got (Self true) j _
    | ShutP true j _ | ShutC true j | Closed true j => Nat.eqb i j | _ => false end) l).
(** the elements in the buffer, oldest first *)
Definition contents (c : chan T) : list (option T) := map (fun k => buffer c ((front c + k) mod size c)) (seq 0 (count c)).
Definition is_reg_read (o : op T) := match o with RegRead _ => true | _ => false end.
Definition is_reg_write (o : op T) := match o with RegWrite _ _ => true | _ => false end.
Definition is_flush (o : op T) := match o with Flush _ _ => true | _ => false end.
Definition no (f : op T -> bool) (os : list (op T)) := forallb (fun o => negb (f o)) os.
End S.
