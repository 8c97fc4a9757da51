(** libcfa/src/concurrency/kernel/fwd.hfa:383-408: wait_any on an array of n futures, one wait context on the caller's
    stack, one server per future, one transition per atomic instruction. [setup], [retract] and [fulfil] are those of
    [Verif.KFuture.Model] (fwd.hfa:258-308, 329-360), here on futures numbered 0 .. n-1 and with a single context
    (number 0). Waiting on the context is a step enabled once it is posted ([Verif.OneShot]). Futures are not abandoned
    or reset while the call runs. *)
From Coq Require Import List Bool Arith.
From Verif.KFuture Require Import Model.
Import ListNotations.

(** The caller: [setup] of future i, at the read / between read and CAS; waiting; [retract] of future i / spinning in it,
    with the local variable [ret] (fwd.hfa:401, not initialised: None); returned: early (fwd.hfa:395) or not, with the
    index of the returned future (None: [ret] was never assigned). *)
Inductive apc := ASet (i : nat) | ASetC (i : nat) (e : pv) | AWait | ARet (i : nat) (r : option nat) | ASpin (i : nat) (r : option nat)
  | ADone (early : bool) (r : option nat).

Record st := S_ {
  fp : nat -> pv;       (* the words of the futures *)
  fv : nat -> spc;      (* their servers *)
  c : apc;
  os : bool;            (* the context has been posted *)
  dead : nat            (* posts of the context after wait_any returned *)
}.
Definition init : st := S_ (fun _ => Armed) (fun _ => SIdle) (ASet 0) false 0.

Definition setp (f : nat -> pv) (i : nat) (x : pv) : nat -> pv := fun j => if j =? i then x else f j.
Definition setv (f : nat -> spc) (i : nat) (x : spc) : nat -> spc := fun j => if j =? i then x else f j.

Inductive actor := Caller | Server (i : nat).

(** fwd.hfa:393-396: go on with the next set-up, or wait. *)
Definition next_setup (n i : nat) : apc := if S i <? n then ASet (S i) else AWait.
(** fwd.hfa:402-406: go on with the next retract, or return. *)
Definition next_retract (n i : nat) (r : option nat) : apc := if S i <? n then ARet (S i) r else ADone false r.

Definition step (n : nat) (s : st) (a : actor) : option st :=
  match a with
  | Caller => match c s with
      | ASet i => match fp s i with
          | Fulfilled => Some (S_ (fp s) (fv s) (ADone true (Some i)) (os s) (dead s))
          | e => Some (S_ (fp s) (fv s) (ASetC i e) (os s) (dead s))
          end
      | ASetC i e =>
          if pv_eqb (fp s i) e then Some (S_ (setp (fp s) i (Ctx 0)) (fv s) (next_setup n i) (os s) (dead s))
          else Some (S_ (fp s) (fv s) (ASet i) (os s) (dead s))
      | AWait => if os s then Some (S_ (fp s) (fv s) (ARet 0 None) (os s) (dead s)) else None
      | ARet i r =>
          if pv_eqb (fp s i) (Ctx 0) then Some (S_ (setp (fp s) i Armed) (fv s) (next_retract n i r) (os s) (dead s))
          else match fp s i with
          | Armed => Some (S_ (fp s) (fv s) (next_retract n i r) (os s) (dead s))
          | Fulfilled => Some (S_ (fp s) (fv s) (next_retract n i (Some i)) (os s) (dead s))
          | Progress => Some (S_ (fp s) (fv s) (ASpin i r) (os s) (dead s))
          | _ => None
          end
      | ASpin i r => match fp s i with
          | Fulfilled => Some (S_ (fp s) (fv s) (next_retract n i (Some i)) (os s) (dead s))
          | _ => Some s
          end
      | ADone _ _ => None
      end
  | Server i => match fv s i with
      | SIdle => Some (S_ (fp s) (setv (fv s) i (SCas (fp s i))) (c s) (os s) (dead s))
      | SCas e =>
          if pv_eqb (fp s i) e then
            match e with
            | Armed => Some (S_ (setp (fp s) i Fulfilled) (setv (fv s) i SDone) (c s) (os s) (dead s))
            | Ctx k => Some (S_ (setp (fp s) i Progress) (setv (fv s) i (SPost k)) (c s) (os s) (dead s))
            | _ => None
            end
          else Some (S_ (fp s) (setv (fv s) i SIdle) (c s) (os s) (dead s))
      | SPost _ => Some (S_ (fp s) (setv (fv s) i SStore) (c s) true (match c s with ADone _ _ => S (dead s) | _ => dead s end))
      | SStore => Some (S_ (setp (fp s) i Fulfilled) (setv (fv s) i SDone) (c s) (os s) (dead s))
      | SDone => None
      end
  end.

Inductive reach (n : nat) : st -> Prop :=
| r0 : reach n init
| rS s a s' : reach n s -> step n s a = Some s' -> reach n s'.
