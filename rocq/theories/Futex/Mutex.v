(** libcfa/src/concurrency/locks.hfa:239-295 futex_mutex. One transition per atomic access or system call. The number of
    iterations of the spinning loop is left open (at least one, as in the code): op argument [c] = 0 means the loop ends.
    FUTEX_WAIT checks the word and goes to sleep atomically, and may return for no reason; FUTEX_WAKE wakes an arbitrary
    sleeper (number [c]). A thread unlocks only what it locked. Sequentially consistent memory. *)
From Coq Require Import List Bool Arith.
Import ListNotations.

Inductive pc := Idle | Try | Xchg | FWait | Asleep | Hold | Unl | Wake.
Record st := S_ { val : nat; zz : list nat; pcs : nat -> pc }.
Definition upd (f : nat -> pc) (i : nat) (x : pc) : nat -> pc := fun j => if j =? i then x else f j.
(** locks.hfa:257. *)
Definition init : st := S_ 0 [] (fun _ => Idle).
Definition go_ (s : st) (v : nat) (t : nat) (k : pc) : st := S_ v (zz s) (upd (pcs s) t k).
Definition del (x : nat) (l : list nat) : list nat := filter (fun y => negb (y =? x)) l.

Definition step (s : st) (t c : nat) : option st :=
  match pcs s t with
  | Idle => Some (go_ s (val s) t Try)                                     (* call lock *)
  | Try =>                                                                 (* 272-278 *)
      if val s =? 0 then Some (go_ s 1 t Hold)
      else if val s =? 2 then Some (go_ s (val s) t FWait)
      else Some (go_ s (val s) t (if c =? 0 then Xchg else Try))
  | Xchg => Some (go_ s 2 t (if val s =? 0 then Hold else FWait))          (* 281, 286 *)
  | FWait =>                                                               (* 285 *)
      if val s =? 2 then Some (S_ (val s) (t :: zz s) (upd (pcs s) t Asleep)) else Some (go_ s (val s) t Xchg)
  | Asleep => Some (S_ (val s) (del t (zz s)) (upd (pcs s) t Xchg))        (* returns for no reason *)
  | Hold => Some (go_ s (val s) t Unl)                                     (* call unlock *)
  | Unl => Some (go_ s 0 t (if val s =? 1 then Idle else Wake))            (* 291 *)
  | Wake =>                                                                (* 294 *)
      match zz s with
      | [] => Some (go_ s (val s) t Idle)
      | y :: _ => let x := nth c (zz s) y in Some (S_ (val s) (del x (zz s)) (upd (upd (pcs s) t Idle) x Xchg))
      end
  end.
Inductive reach : st -> Prop :=
| r_init : reach init
| r_step s t c s' : reach s -> step s t c = Some s' -> reach s'.
