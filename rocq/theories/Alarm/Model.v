(** Model of the alarm list and its timer: libcfa/src/concurrency/alarm.cfa:32-131, preemption.cfa:102-151.
    All operations run under event_kernel->lock; one transition each, at a given clock reading (nanoseconds, unbounded).
    The intrusive dlist is a list (see DList for the pointer level).  [seq] is a ghost: the number of the insertion.
    The interval timer is the absolute time of its expiry; the kernel's conversion to microseconds is not modelled here
    (see TimeConv).  When the timer expires it disarms itself and leaves a pending SIGALRM ([signalled]).
    Registering a node that is already listed is a contract violation (list.hfa verify) and gives [None]. *)
From Coq Require Import ZArith List Bool.
Import ListNotations.
Open Scope Z_scope.

(** alarm.hfa:45-62; [set] is membership in the list *)
Record node := N { id : nat; deadline : Z; period : Z; seq : nat }.
Record st := St { alarms : list node; timer : option Z; signalled : bool; now : Z; stamp : nat }.
Definition init (t : Z) : st := St [] None false t 0.

(** alarm.cfa:85-90: advance while deadline <= n's, insert before *)
Fixpoint insert (n : node) (l : list node) : list node :=
  match l with [] => [n] | m :: r => if deadline m <=? deadline n then m :: insert n r else n :: l end.

(** The clock moves to t; an expired timer disarms and signals. *)
Definition advance (s : st) (t : Z) : st :=
  match timer s with
  | Some e => if e <=? t then St (alarms s) None true t (stamp s) else St (alarms s) (Some e) (signalled s) t (stamp s)
  | None => St (alarms s) None (signalled s) t (stamp s)
  end.
(** alarm.cfa:39-47, at time [now] *)
Definition set_timer (s : st) (d : Z) : st :=
  let a := Z.max d 1000 in
  let od := match timer s with Some e => e - now s | None => 0 end in
  if (od =? 0) || (a <? od) then St (alarms s) (Some (now s + a)) (signalled s) (now s) (stamp s) else s.

Definition listed (i : nat) (l : list node) : bool := existsb (fun n => Nat.eqb (id n) i) l.
(** alarm.cfa:102-117 *)
Definition register (s : st) (i : nat) (dl per : Z) : option st :=
  if listed i (alarms s) then None else
  let n := N i dl per (stamp s) in
  let s := St (insert n (alarms s)) (timer s) (signalled s) (now s) (S (stamp s)) in
  Some (set_timer s (dl - now s)).
(** alarm.cfa:119-129 *)
Definition unregister (s : st) (i : nat) : st :=
  St (filter (fun n => negb (Nat.eqb (id n) i)) (alarms s)) (timer s) (signalled s) (now s) (stamp s).

(** preemption.cfa:102-151: the loop, with fuel; the nodes fired, in order *)
Fixpoint tick_loop (fuel : nat) (l : list node) (t : Z) (stp : nat) : option (list node * list node * nat) :=
  match fuel with
  | O => None
  | S f =>
      match l with
      | [] => Some ([], [], stp)
      | n :: r =>
          if t <=? deadline n then Some ([], l, stp)                       (* get_expired: deadline >= currtime *)
          else
            let (l', stp') := if 0 <? period n then (insert (N (id n) (t + period n) (period n) stp) r, S stp) else (r, stp) in
            match tick_loop f l' t stp' with Some (fs, l'', stp'') => Some (n :: fs, l'', stp'') | None => None end
      end
  end.
Definition tick (fuel : nat) (s : st) : option (st * list node) :=
  match tick_loop fuel (alarms s) (now s) (stamp s) with
  | None => None
  | Some (fs, l, stp) =>
      let s := St l (timer s) false (now s) stp in
      Some (match l with [] => s | n :: _ => set_timer s (deadline n - now s) end, fs)
  end.

Inductive op := Register (i : nat) (dl per : Z) | Unregister (i : nat) | Tick.
(** an operation at clock reading t *)
Definition step (s : st) (t : Z) (o : op) : option (st * list node) :=
  let s := advance s t in
  match o with
  | Register i dl per => match register s i dl per with Some s' => Some (s', []) | None => None end
  | Unregister i => Some (unregister s i, [])
  | Tick => tick (S (length (alarms s))) s
  end.
