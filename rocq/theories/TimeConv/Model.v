(** Model of libcfa/src/time.hfa, time_t.hfa and the formatting code of time.cfa.
    A Duration is an int64_t and a Time a uint64_t nanosecond count, both represented in Z.  Signed overflow is
    undefined behaviour in C: it is the outcome [None].  Unsigned arithmetic wraps ([wrapu]); conversion of an
    out-of-range unsigned value to int64_t wraps ([wraps], GCC's definition).
    Not modelled: the double-precision operations (time.hfa:58,83-91 double forms,102-109). *)
From Coq Require Import ZArith Decimal DecimalZ List.
Import ListNotations.
Open Scope Z_scope.

Definition M64 : Z := 18446744073709551616.
Definition I64MAX : Z := 9223372036854775807.
Definition in_i64 (z : Z) : bool := (- I64MAX - 1 <=? z) && (z <=? I64MAX).
Definition in_u64 (z : Z) : bool := (0 <=? z) && (z <? M64).
(** signed result: undefined when out of range *)
Definition sgn64 (z : Z) : option Z := if in_i64 z then Some z else None.
Definition wrapu (z : Z) : Z := z mod M64.
Definition wraps (z : Z) : Z := let u := z mod M64 in if u <=? I64MAX then u else u - M64.

Definition obind {A B} (x : option A) (f : A -> option B) : option B :=
  match x with Some a => f a | None => None end.

(** time.hfa:25 *)
Definition TIMEGRAN : Z := 1000000000.

Record timeval := TV { tv_sec : Z; tv_usec : Z }.
Record timespec := TS { ts_sec : Z; ts_nsec : Z }.

(** time.hfa:31 (and :38-41): [tn = (int64_t)t.tv_sec * TIMEGRAN + t.tv_nsec] *)
Definition dur_of_ts (t : timespec) : option Z :=
  obind (sgn64 (ts_sec t * TIMEGRAN)) (fun s => sgn64 (s + ts_nsec t)).
(** time.hfa:30 (and :34-37): [t.tv_usec * 1000] *)
Definition dur_of_tv (t : timeval) : option Z :=
  obind (sgn64 (tv_sec t * TIMEGRAN)) (fun s => obind (sgn64 (tv_usec t * 1000)) (fun u => sgn64 (s + u))).

(** time.hfa:44-61: Duration arithmetic; C's truncating / and %; division by zero is undefined. *)
Definition dadd (a b : Z) : option Z := sgn64 (a + b).
Definition dsub (a b : Z) : option Z := sgn64 (a - b).
Definition dneg (a : Z) : option Z := sgn64 (- a).
Definition dmul (a k : Z) : option Z := sgn64 (a * k).
Definition ddivd (a b : Z) : option Z := if b =? 0 then None else sgn64 (Z.quot a b).
Definition dmodd (a b : Z) : option Z :=
  if b =? 0 then None else obind (sgn64 (Z.quot a b)) (fun _ => sgn64 (Z.rem a b)).
(** time.hfa:77 *)
Definition dabs (a : Z) : option Z := if 0 <=? a then Some a else dneg a.
(** time.hfa:111-112 *)
Definition dmax (a b : Z) : Z := if a <? b then b else a.
Definition dmin (a b : Z) : Z := if negb (b <? a) then a else b.

(** Units, time.hfa:79-90 (constructors) and :93-100 (extractors) *)
Inductive unit_t := Uns | Uus | Ums | Us | Um | Uh | Ud | Uw.
Definition scale (u : unit_t) : Z :=
  match u with
  | Uns => 1
  | Uus => Z.quot TIMEGRAN 1000000
  | Ums => Z.quot TIMEGRAN 1000
  | Us => TIMEGRAN
  | Um => 60 * TIMEGRAN
  | Uh => 60 * 60 * TIMEGRAN
  | Ud => 24 * 60 * 60 * TIMEGRAN
  | Uw => 7 * 24 * 60 * 60 * TIMEGRAN
  end.
Definition of_unit (u : unit_t) (n : Z) : option Z := sgn64 (n * scale u).
Definition to_unit (u : unit_t) (d : Z) : Z := Z.quot d (scale u).

Record itimerval := ITV { it_value : timeval; it_interval : timeval }.
(** time.hfa:150 and :156: [it_value{ alarm`s, (alarm % 1`s)`us }] *)
Definition tv_of_dur (d : Z) : timeval := TV (to_unit Us d) (to_unit Uus (Z.rem d TIMEGRAN)).
(** time.hfa:148-152 *)
Definition itimerval1 (alarm : Z) : itimerval := ITV (tv_of_dur alarm) (TV 0 0).
(** time.hfa:154-158: note [interval`us], without the remainder *)
Definition itimerval2 (alarm interval : Z) : itimerval :=
  ITV (tv_of_dur alarm) (TV (to_unit Us interval) (to_unit Uus interval)).

(** time.hfa:165-176: Time from timeval/timespec: signed arithmetic, then conversion to uint64_t *)
Definition time_of_ts (t : timespec) : option Z := option_map wrapu (dur_of_ts t).
Definition time_of_tv (t : timeval) : option Z := option_map wrapu (dur_of_tv t).
(** time.hfa:178-184: uint64_t + int64_t is computed in uint64_t *)
Definition tadd (t d : Z) : Z := wrapu (t + d).
Definition tsubd (t d : Z) : Z := wrapu (t - d).
Definition tsub (a b : Z) : Z := wraps (wrapu (a - b)).
(** time.hfa:192 *)
Definition time_ns (t : Z) : Z := wraps t.
(** time.hfa:214-217 and :221-224 *)
Definition tv_of_time (t : Z) : timeval := TV (t / TIMEGRAN) (t mod TIMEGRAN / (TIMEGRAN / 1000000)).
Definition ts_of_time (t : Z) : timespec := TS (t / TIMEGRAN) (t mod TIMEGRAN).
(** time.hfa:124-125,139-140: field-wise sums (signed; the fields are 64-bit longs) *)
Definition ts_add (a b : timespec) : option timespec :=
  obind (sgn64 (ts_sec a + ts_sec b)) (fun s => obind (sgn64 (ts_nsec a + ts_nsec b)) (fun n => Some (TS s n))).

(** time.cfa:23-29: the nine digits of ns (0 <= ns < 10^9), most significant first, without trailing zeros.
    [digits n k] are the k low decimal digits of n, as printed by "%0kld". *)
Fixpoint digits (k : nat) (n : Z) : list Z :=
  match k with
  | O => []
  | S k' => digits k' (n / 10) ++ [n mod 10]
  end.
(** The loop :26 scans from index 9 down over the character '0' ('.' at index 0 stops it). *)
Fixpoint trim (rev_ds : list Z) : list Z :=
  match rev_ds with
  | d :: r => if d =? 0 then trim r else rev_ds
  | [] => []
  end.
Definition nanomsd (ns : Z) : list Z := rev (trim (rev (digits 9 ns))).

(** Printed text: an integer in decimal (with '-' when negative), then nothing or '.' and the digits. *)
Record text := TXT { ipart : Decimal.int; frac : option (list Z) }.
(** time.cfa:36-44 *)
Definition print_duration (d : Z) : option text :=
  obind (if d <? 0 then dneg d else Some d) (fun a =>
  let ns := Z.rem a TIMEGRAN in
  Some (TXT (Z.to_int (Z.quot d TIMEGRAN)) (if ns =? 0 then None else Some (nanomsd ns)))).

(** time.cfa:93,108,123: the two-digit year of a broken-down time whose tm_year (years since 1900) is given *)
Definition yy (tm_year : Z) : Z := Z.rem tm_year 99.
