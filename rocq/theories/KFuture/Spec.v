(** What happens to a registration with a future, independent of how the future's word encodes it. *)
From Coq Require Import List Bool Arith.
Import ListNotations.

Inductive ev :=
| EReg (k : nat)             (* set-up of wait context k succeeded *)
| EPost (k : nat)            (* the server posted context k *)
| ERetract (k : nat) (b : bool) (* retract of k returned b: true = it has been consumed *)
| EWaited (k : nat).         (* waiting on k returned *)

Inductive reg := NoReg | Registered (k : nat) | Posted (k : nat).

Definition rnext (r : reg) (e : ev) : option reg :=
  match e, r with
  | EReg k, NoReg => Some (Registered k)
  | EPost k, Registered k' => if k =? k' then Some (Posted k) else None
  | ERetract k false, Registered k' => if k =? k' then Some NoReg else None
  | ERetract k true, Posted k' => if k =? k' then Some NoReg else None
  | EWaited k, Posted k' => if k =? k' then Some NoReg else None
  | _, _ => None
  end.
(** Histories, latest event first. *)
Fixpoint legal (l : list ev) : option reg :=
  match l with [] => Some NoReg | e :: l => match legal l with Some r => rnext r e | None => None end end.
