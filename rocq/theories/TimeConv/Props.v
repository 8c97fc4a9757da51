(** C04, C05, C60: time and duration conversions, interval timers, printing. *)
From Coq Require Import ZArith Decimal List.
From Verif.TimeConv Require Import Model Spec Proofs.
Import ListNotations.
Open Scope Z_scope.

(** C04: Time to timespec / timeval. *)
Theorem C04_time_to_timespec : forall t, in_u64 t = true ->
  0 <= ts_nsec (ts_of_time t) < 10 ^ 9 /\ ns_of_ts (ts_of_time t) = t.
Proof. exact ts_fields. Qed.
Print Assumptions C04_time_to_timespec.

Theorem C04_time_to_timeval : forall t, in_u64 t = true ->
  0 <= tv_usec (tv_of_time t) < 10 ^ 6 /\ us_of_tv (tv_of_time t) = t / 1000.
Proof. exact tv_fields. Qed.
Print Assumptions C04_time_to_timeval.

(** Back again.  Full statement: for every 64-bit t.  It holds up to 2^63-1 ns (year 2262) ... *)
Theorem C04_timespec_roundtrip_partial : forall t, 0 <= t <= I64MAX -> time_of_ts (ts_of_time t) = Some t.
Proof. exact ts_roundtrip. Qed.
Print Assumptions C04_timespec_roundtrip_partial.
Theorem C04_timeval_roundtrip_partial : forall t, 0 <= t <= I64MAX -> time_of_tv (tv_of_time t) = Some (t - t mod 1000).
Proof. exact tv_roundtrip. Qed.
Print Assumptions C04_timeval_roundtrip_partial.
(** ... and is undefined behaviour (signed overflow) above. *)
Theorem C04_timespec_roundtrip_refuted : exists t, in_u64 t = true /\ time_of_ts (ts_of_time t) <> Some t.
Proof. exists (I64MAX + 1). split; [reflexivity|discriminate]. Qed.
Print Assumptions C04_timespec_roundtrip_refuted.

Theorem C04_duration_from_timespec : forall ts d, dur_of_ts ts = Some d -> d = ns_of_ts ts.
Proof. exact dur_of_ts_ok. Qed.
Print Assumptions C04_duration_from_timespec.
Theorem C04_duration_from_timeval : forall tv d, dur_of_tv tv = Some d -> d = us_of_tv tv * 1000.
Proof. exact dur_of_tv_ok. Qed.
Print Assumptions C04_duration_from_timeval.

(** Units: constructing then extracting n units gives n; extracting then constructing truncates toward zero to a
    whole number of units. *)
Theorem C04_unit_roundtrip : forall u n d, of_unit u n = Some d -> to_unit u d = n.
Proof. exact unit_roundtrip. Qed.
Print Assumptions C04_unit_roundtrip.
Theorem C04_unit_truncates : forall u d, in_i64 d = true -> exists d', of_unit u (to_unit u d) = Some d' /\
  Z.abs d' <= Z.abs d /\ Z.abs (d - d') < scale u /\ 0 <= d * d'.
Proof. exact unit_trunc. Qed.
Print Assumptions C04_unit_truncates.
(** The units are what their names say, in nanoseconds. *)
Theorem C04_unit_scales : map scale [Uns; Uus; Ums; Us; Um; Uh; Ud; Uw] =
  [1; 10 ^ 3; 10 ^ 6; 10 ^ 9; 60 * 10 ^ 9; 3600 * 10 ^ 9; 86400 * 10 ^ 9; 604800 * 10 ^ 9].
Proof. exact eq_refl. Qed.
Print Assumptions C04_unit_scales.

(** Time arithmetic, modulo 2^64: moving a time by a duration and back, and differences. *)
Theorem C04_time_add_sub : forall t d, in_u64 t = true -> in_i64 d = true -> tsubd (tadd t d) d = t.
Proof. exact tadd_sub. Qed.
Print Assumptions C04_time_add_sub.
Theorem C04_time_difference : forall a b, in_u64 a = true -> in_u64 b = true ->
  tadd b (tsub a b) = a /\ in_i64 (tsub a b) = true.
Proof. exact tsub_add. Qed.
Print Assumptions C04_time_difference.
Theorem C04_time_difference_exact : forall a b, in_u64 a = true -> in_u64 b = true -> in_i64 (a - b) = true ->
  tsub a b = a - b.
Proof. exact tsub_exact. Qed.
Print Assumptions C04_time_difference_exact.

Theorem C04_duration_abs_min_max : forall a b, (in_i64 a = true -> a <> - I64MAX - 1 -> dabs a = Some (Z.abs a)) /\
  dmax a b = Z.max a b /\ dmin a b = Z.min a b.
Proof. exact (fun a b => conj (dabs_ok a) (conj (dmax_ok a b) (dmin_ok a b))). Qed.
Print Assumptions C04_duration_abs_min_max.
Example C04_example : in_u64 1700000000123456789 = true /\
  ts_of_time 1700000000123456789 = TS 1700000000 123456789 /\
  time_of_ts (TS 1700000000 123456789) = Some 1700000000123456789 /\
  of_unit Um 3 = Some 180000000000 /\ to_unit Um 199999999999 = 3.
Proof. repeat split. Qed.

(** C05: interval timers. [C05_timer_wellformed]: both fields of the value built from a non-negative alarm. *)
Definition timer_ok (tv : timeval) (d : Z) : Prop := 0 <= tv_usec tv < 10 ^ 6 /\ us_of_tv tv = d / 1000.
Theorem C05_alarm_wellformed : forall alarm, 0 <= alarm ->
  timer_ok (it_value (itimerval1 alarm)) alarm /\ timer_ok (it_interval (itimerval1 alarm)) 0 /\
  forall interval, timer_ok (it_value (itimerval2 alarm interval)) alarm.
Proof.
  exact (fun alarm H => conj (tv_of_dur_ok alarm H)
    (conj (tv_of_dur_ok 0 (Z.le_refl 0)) (fun _ => tv_of_dur_ok alarm H))).
Qed.
Print Assumptions C05_alarm_wellformed.
(** Full statement: forall alarm interval >= 0, timer_ok (it_interval (itimerval2 alarm interval)) interval.
    False for every interval of one second or more: *)
Theorem C05_interval_refuted : forall alarm interval, 10 ^ 9 <= interval ->
  ~ timer_ok (it_interval (itimerval2 alarm interval)) interval.
Proof.
  intros alarm interval H [H1 _]. unfold itimerval2, to_unit in H1; cbn [it_interval tv_usec] in H1.
  change (scale Uus) with 1000 in H1. change (10 ^ 6) with 1000000 in H1. change (10 ^ 9) with 1000000000 in H.
  assert (1000000 <= Z.quot interval 1000); [apply Z.quot_le_lower_bound; try easy|].
  destruct H1 as [_ H1]. apply Z.lt_nge in H1. contradiction.
Qed.
Print Assumptions C05_interval_refuted.
Theorem C05_interval_partial : forall alarm interval, 0 <= interval < 10 ^ 9 ->
  timer_ok (it_interval (itimerval2 alarm interval)) interval.
Proof.
  intros alarm interval H. change (10 ^ 9) with TIMEGRAN in H.
  generalize (tv_of_dur_ok interval (proj1 H)). unfold tv_of_dur. rewrite Z.rem_small by exact H. exact (fun x => x).
Qed.
Print Assumptions C05_interval_partial.
Example C05_example : itimerval1 2500000000 = ITV (TV 2 500000) (TV 0 0) /\
  itimerval2 2500000000 1500000000 = ITV (TV 2 500000) (TV 1 1500000).
Proof. split; reflexivity. Qed.

(** C60: printing. Full statement: forall d t, print_duration d = Some t -> read_ns t = d. *)
Theorem C60_print_duration_partial : forall d t, print_duration d = Some t -> 0 <= d \/ d <= - 10 ^ 9 ->
  read_ns t = d /\ tidy t.
Proof. exact print_ok. Qed.
Print Assumptions C60_print_duration_partial.
Theorem C60_print_total : forall d, in_i64 d = true -> d <> - I64MAX - 1 -> exists t, print_duration d = Some t.
Proof. exact print_total. Qed.
Print Assumptions C60_print_total.
Theorem C60_print_negative_refuted : forall d, - 10 ^ 9 < d < 0 ->
  exists t, print_duration d = Some t /\ read_ns t = - d.
Proof. exact print_small_negative. Qed.
Print Assumptions C60_print_negative_refuted.
(** Two-digit year: the year of the century is tm_year mod 100; the code takes it mod 99. *)
Theorem C60_two_digit_year_refuted : forall y, 99 <= y <= 197 -> yy y <> y mod 100.
Proof.
  intros y H. unfold yy.
  assert (Hall : forallb (fun k => negb (Z.rem (99 + Z.of_nat k) 99 =? (99 + Z.of_nat k) mod 100)) (seq 0 99) = true)
    by (vm_compute; reflexivity).
  rewrite forallb_forall in Hall. specialize (Hall (Z.to_nat (y - 99))).
  assert (Hin : In (Z.to_nat (y - 99)) (seq 0 99)).
  { apply in_seq. split; [apply Nat.le_0_l|]. apply Nat2Z.inj_lt. rewrite Z2Nat.id; [|apply Z.le_0_sub; apply H].
    change (Z.of_nat (0 + 99)) with 99. destruct H as [_ H]. apply Z.lt_sub_lt_add_r.
    eapply Z.le_lt_trans; [exact H|reflexivity]. }
  specialize (Hall Hin). rewrite Z2Nat.id in Hall; [|apply Z.le_0_sub; apply H].
  replace (99 + (y - 99)) with y in Hall by ring. intros E. rewrite E, Z.eqb_refl in Hall. discriminate.
Qed.
Print Assumptions C60_two_digit_year_refuted.
Example C60_example : option_map read_ns (print_duration (-1050000000)) = Some (-1050000000) /\
  print_duration 1050000000 = Some (TXT (Z.to_int 1) (Some [0; 5])).
Proof. split; reflexivity. Qed.
