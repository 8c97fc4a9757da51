(** What the text and the C structures denote. *)
From Coq Require Import ZArith Decimal DecimalZ List.
From Verif.TimeConv Require Import Model.
Import ListNotations.
Open Scope Z_scope.

(** nanoseconds denoted by a timespec / timeval *)
Definition ns_of_ts (t : timespec) : Z := ts_sec t * 10 ^ 9 + ts_nsec t.
Definition us_of_tv (t : timeval) : Z := tv_sec t * 10 ^ 6 + tv_usec t.

(** value of the fraction digits, in units of 10^-9 *)
Fixpoint fracval (w : Z) (ds : list Z) : Z :=
  match ds with
  | [] => 0
  | d :: r => d * 10 ^ (w - 1) + fracval (w - 1) r
  end.
Definition fracns (f : option (list Z)) : Z := match f with None => 0 | Some ds => fracval 9 ds end.
(** The number a reader reads, in nanoseconds: a leading minus sign applies to the whole text. *)
Definition read_ns (t : text) : Z :=
  match ipart t with
  | Decimal.Pos u => Z.of_uint u * 10 ^ 9 + fracns (frac t)
  | Decimal.Neg u => - (Z.of_uint u * 10 ^ 9 + fracns (frac t))
  end.
(** No redundant trailing zero, every digit a digit. *)
Definition tidy (t : text) : Prop :=
  match frac t with
  | None => True
  | Some ds => ds <> [] /\ last ds 0 <> 0 /\ Forall (fun d => 0 <= d <= 9) ds
  end.
