(** libcfa/src/concurrency/locks.hfa:370-440 exp_backoff_then_block_lock. One transition per atomic access of lock_value
    and per step inside the spin lock's critical section ([sl]: its holder). The number of backoff iterations is left open:
    [c] = 0 ends the loop. An unparked thread continues ([Verif.Park]). A thread unlocks only what it locked.
    Sequentially consistent memory. *)
From Coq Require Import List Bool Arith.
From Verif.Futex Require Import Gen.
Import ListNotations.

Inductive pc := Idle | TryOnce | Try | Xchg | Blk | Ins | Asleep | Hold | Unl | Pop | Unpark (x : option nat).
Record st := S_ { val : nat; q : list nat; sl : option nat; pcs : nat -> pc }.
(** locks.hfa:383-387. *)
Definition init : st := S_ 0 [] None (fun _ => Idle).
Definition go_ (s : st) (v : nat) (t : nat) (k : pc) : st := S_ v (q s) (sl s) (upd (pcs s) t k).

Definition step (s : st) (t c : nat) : option st :=
  match pcs s t with
  | Idle => Some (go_ s (val s) t (if c =? 0 then TryOnce else Try))           (* call try_lock or lock *)
  | TryOnce => Some (if val s =? 0 then go_ s 1 t Hold else go_ s (val s) t Idle)  (* 397 *)
  | Try =>                                                                     (* 422-426 *)
      if val s =? 0 then Some (go_ s 1 t Hold)
      else if val s =? 2 then Some (go_ s (val s) t Blk)
      else Some (go_ s (val s) t (if c =? 0 then Xchg else Try))
  | Xchg => Some (go_ s 2 t (if val s =? 0 then Hold else Blk))                (* 429, 431: 399-401 *)
  | Blk =>                                                                     (* 404-408 *)
      match sl s with
      | Some _ => None
      | None => if val s =? 2 then Some (S_ (val s) (q s) (Some t) (upd (pcs s) t Ins)) else Some (go_ s (val s) t Xchg)
      end
  | Ins => Some (S_ (val s) (q s ++ [t]) None (upd (pcs s) t Asleep))          (* 409-411 *)
  | Asleep => None
  | Hold => Some (go_ s (val s) t Unl)                                         (* call unlock *)
  | Unl => Some (go_ s 0 t (if val s =? 1 then Idle else Pop))                 (* 435 *)
  | Pop =>                                                                     (* 436-438 *)
      match sl s with
      | Some _ => None
      | None => match q s with
                | [] => Some (S_ (val s) [] None (upd (pcs s) t (Unpark None)))
                | x :: l => Some (S_ (val s) l None (upd (pcs s) t (Unpark (Some x))))
                end
      end
  | Unpark None => Some (go_ s (val s) t Idle)                                 (* 439 *)
  | Unpark (Some x) => Some (S_ (val s) (q s) (sl s) (upd (upd (pcs s) t Idle) x Xchg))
  end.
Inductive reach : st -> Prop :=
| r_init : reach init
| r_step s t c s' : reach s -> step s t c = Some s' -> reach s'.
