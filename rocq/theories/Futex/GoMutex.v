(** libcfa/src/concurrency/locks.hfa:302-364 go_mutex. One transition per atomic access or system call. How often the
    spinning loops repeat is left open: op argument [c] = 0 ends them. FUTEX_WAIT checks the word and goes to sleep
    atomically and may return for no reason; FUTEX_WAKE wakes an arbitrary sleeper (number [c]). A thread unlocks only what
    it locked. Sequentially consistent memory. *)
From Coq Require Import List Bool Arith.
From Verif.Futex Require Import Gen.
Import ListNotations.

(** [i]: init_state. *)
Inductive pc := Idle | Spec0 | Spin (i : nat) | Cas (i : nat) | Xchg | FWait | Asleep | Hold | Unl | Wake.
Record st := S_ { val : nat; zz : list nat; pcs : nat -> pc }.
(** locks.hfa:315. *)
Definition init : st := S_ 0 [] (fun _ => Idle).
Definition go_ (s : st) (v : nat) (t : nat) (k : pc) : st := S_ v (zz s) (upd (pcs s) t k).

Definition step (s : st) (t c : nat) : option st :=
  match pcs s t with
  | Idle => Some (go_ s (val s) t Spec0)                                              (* call lock *)
  | Spec0 => Some (go_ s 1 t (if val s =? 0 then Hold else Spin (val s)))             (* 332-334 *)
  | Spin i =>                                                                         (* 337, 344: read val *)
      Some (go_ s (val s) t (if val s =? 0 then Cas i else if c =? 0 then Xchg else Spin i))
  | Cas i => if val s =? 0 then Some (go_ s i t Hold) else Some (go_ s (val s) t (Spin i)) (* 339, 346 *)
  | Xchg => Some (go_ s 2 t (if val s =? 0 then Hold else FWait))                     (* 351-352 *)
  | FWait =>                                                                          (* 354 *)
      if val s =? 2 then Some (S_ (val s) (t :: zz s) (upd (pcs s) t Asleep)) else Some (go_ s (val s) t (Spin 2))
  | Asleep => Some (S_ (val s) (del t (zz s)) (upd (pcs s) t (Spin 2)))               (* returns for no reason *)
  | Hold => Some (go_ s (val s) t Unl)                                                (* call unlock *)
  | Unl => Some (go_ s 0 t (if val s =? 1 then Idle else Wake))                       (* 360 *)
  | Wake =>                                                                           (* 363 *)
      match zz s with
      | [] => Some (go_ s (val s) t Idle)
      | y :: _ => let x := nth c (zz s) y in Some (S_ (val s) (del x (zz s)) (upd (upd (pcs s) t Idle) x (Spin 2)))
      end
  end.
Inductive reach : st -> Prop :=
| r_init : reach init
| r_step s t c s' : reach s -> step s t c = Some s' -> reach s'.
