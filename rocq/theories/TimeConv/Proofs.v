From Coq Require Import ZArith Decimal DecimalZ DecimalFacts List Lia ZifyBool Bool.
From Verif.TimeConv Require Import Model Spec.
Import ListNotations.
Open Scope Z_scope.
Ltac Zify.zify_post_hook ::= Z.to_euclidean_division_equations.

Ltac unf := unfold itimerval1, itimerval2, tv_of_dur, time_of_ts, time_of_tv, dur_of_ts, dur_of_tv, ts_of_time, tv_of_time,
  ns_of_ts, us_of_tv, tadd, tsub, tsubd, time_ns, dabs, dneg, dadd, dsub, of_unit, to_unit, sgn64, in_i64, in_u64,
  wrapu, wraps, obind, option_map, TIMEGRAN, I64MAX, M64 in *;
  cbn [ts_sec ts_nsec tv_sec tv_usec it_value it_interval] in *.
Ltac ifs := repeat match goal with
  | |- context [if ?b then _ else _] => destruct b eqn:?
  | H : context [if ?b then _ else _] |- _ => destruct b eqn:? end.

Lemma ts_fields t : in_u64 t = true -> 0 <= ts_nsec (ts_of_time t) < 10 ^ 9 /\ ns_of_ts (ts_of_time t) = t.
Proof. intros H. unf. change (10 ^ 9) with 1000000000. lia. Qed.

Lemma ts_roundtrip t : 0 <= t <= I64MAX -> time_of_ts (ts_of_time t) = Some t.
Proof. intros H. unf. ifs; try lia. f_equal. lia. Qed.

Lemma tv_fields t : in_u64 t = true -> 0 <= tv_usec (tv_of_time t) < 10 ^ 6 /\ us_of_tv (tv_of_time t) = t / 1000.
Proof.
  intros H. unf. change (10 ^ 6) with 1000000. change (1000000000 / 1000000) with 1000. lia.
Qed.

Lemma tv_roundtrip t : 0 <= t <= I64MAX -> time_of_tv (tv_of_time t) = Some (t - t mod 1000).
Proof. intros H. unf. change (1000000000 / 1000000) with 1000. ifs; try lia. f_equal. lia. Qed.

Lemma dur_of_ts_ok ts d : dur_of_ts ts = Some d -> d = ns_of_ts ts.
Proof. intros H. unf. change (10^9) with 1000000000. ifs; try discriminate. injection H as <-. reflexivity. Qed.

Lemma dur_of_tv_ok tv d : dur_of_tv tv = Some d -> d = us_of_tv tv * 1000.
Proof. intros H. unf. change (10^6) with 1000000. ifs; try discriminate. injection H as <-. lia. Qed.

Lemma scale_pos u : 0 < scale u.
Proof. destruct u; reflexivity. Qed.

Lemma unit_roundtrip u n d : of_unit u n = Some d -> to_unit u d = n.
Proof.
  unfold of_unit, sgn64. destruct (in_i64 _); [|discriminate]. intros H; injection H as <-.
  unfold to_unit. apply Z.quot_mul. assert (H := scale_pos u). lia.
Qed.

Lemma quot_trunc s d : 0 < s -> let d' := Z.quot d s * s in
  Z.abs d' <= Z.abs d /\ Z.abs (d - d') < s /\ 0 <= d * d'.
Proof.
  intros Hs d'. subst d'. assert (Hq := Z.quot_rem' d s).
  replace (Z.quot d s * s) with (d - Z.rem d s) by lia. clear Hq.
  destruct (Z.le_gt_cases 0 d) as [Hd|Hd].
  - assert (H1 := Z.rem_bound_pos d s Hd Hs). assert (H2 := Z.rem_le d s Hd Hs).
    split; [lia|]. split; [lia|]. apply Z.mul_nonneg_nonneg; lia.
  - assert (H1 := Z.rem_bound_pos (- d) s ltac:(lia) Hs). assert (H2 := Z.rem_le (- d) s ltac:(lia) Hs).
    rewrite Z.rem_opp_l in H1, H2 by lia. split; [lia|]. split; [lia|]. apply Z.mul_nonpos_nonpos; lia.
Qed.
Lemma unit_trunc u d : in_i64 d = true -> exists d', of_unit u (to_unit u d) = Some d' /\
  Z.abs d' <= Z.abs d /\ Z.abs (d - d') < scale u /\ 0 <= d * d'.
Proof.
  intros H. assert (Hs := quot_trunc _ d (scale_pos u)). unfold of_unit, to_unit, sgn64.
  cbv zeta in Hs. set (d' := Z.quot d (scale u) * scale u) in *.
  assert (in_i64 d' = true) as ->. { unfold in_i64, I64MAX in *. destruct Hs as [Hs [_ Hs2]]. clearbody d'. nia. }
  exists d'. auto.
Qed.

Lemma tadd_sub t d : in_u64 t = true -> in_i64 d = true -> tsubd (tadd t d) d = t.
Proof.
  intros H1 H2. unfold tsubd, tadd, wrapu. rewrite Zminus_mod_idemp_l.
  replace (t + d - d) with t by lia. unf. apply Z.mod_small. lia.
Qed.

Lemma tsub_add a b : in_u64 a = true -> in_u64 b = true -> tadd b (tsub a b) = a /\ in_i64 (tsub a b) = true.
Proof.
  intros H1 H2. unf. rewrite Z.mod_mod by lia. destruct ((a - b) mod 18446744073709551616 <=? _) eqn:E.
  - split; [|lia]. rewrite Zplus_mod_idemp_r. replace (b + (a - b)) with a by lia. apply Z.mod_small; lia.
  - split; [|lia]. replace (b + ((a - b) mod 18446744073709551616 - 18446744073709551616))
      with (b + (a - b) mod 18446744073709551616 + (-1) * 18446744073709551616) by lia.
    rewrite Z.mod_add by lia. rewrite Zplus_mod_idemp_r. replace (b + (a - b)) with a by lia. apply Z.mod_small; lia.
Qed.

Lemma tsub_exact a b : in_u64 a = true -> in_u64 b = true -> in_i64 (a - b) = true -> tsub a b = a - b.
Proof. intros. unf. ifs; lia. Qed.

Lemma dabs_ok d : in_i64 d = true -> d <> - I64MAX - 1 -> dabs d = Some (Z.abs d).
Proof. intros. unf. ifs; f_equal; lia. Qed.
Lemma dmax_ok a b : dmax a b = Z.max a b.
Proof. unfold dmax. destruct (a <? b) eqn:E; lia. Qed.
Lemma dmin_ok a b : dmin a b = Z.min a b.
Proof. unfold dmin. destruct (b <? a) eqn:E; cbn; lia. Qed.

(** itimerval *)
Lemma tv_of_dur_ok d : 0 <= d -> 0 <= tv_usec (tv_of_dur d) < 10 ^ 6 /\ us_of_tv (tv_of_dur d) = d / 1000.
Proof.
  intros H. unf. cbn [scale]. change (10^6) with 1000000. change (Z.quot TIMEGRAN 1000000) with 1000. unfold TIMEGRAN. lia.
Qed.

(** *** printing *)
Lemma digits_len k : forall n, length (digits k n) = k.
Proof. induction k as [|k IH]; intros n; cbn; auto. rewrite app_length, IH. cbn. lia. Qed.
Lemma digits_range k : forall n, Forall (fun d => 0 <= d <= 9) (digits k n).
Proof.
  induction k as [|k IH]; intros n; cbn [digits]; [constructor|]. apply Forall_app; split; auto.
  repeat constructor; lia.
Qed.
Lemma fracval_app w a b : fracval w (a ++ b) = fracval w a + fracval (w - Z.of_nat (length a)) b.
Proof.
  revert w; induction a as [|x a IH]; intros w; cbn [app fracval length].
  - replace (w - Z.of_nat 0) with w by lia. lia.
  - rewrite IH. replace (w - 1 - Z.of_nat (length a)) with (w - Z.of_nat (S (length a))) by lia. lia.
Qed.
Lemma fracval_digits k : forall n w, 0 <= n -> Z.of_nat k <= w -> n < 10 ^ Z.of_nat k ->
  fracval w (digits k n) = n * 10 ^ (w - Z.of_nat k).
Proof.
  induction k as [|k IH]; intros n w Hn Hw Hlt.
  - cbn in *. assert (n = 0) by lia. subst. reflexivity.
  - cbn [digits]. rewrite fracval_app, digits_len. cbn [fracval].
    rewrite Nat2Z.inj_succ, Z.pow_succ_r in Hlt by lia.
    rewrite IH; try lia.
    rewrite Nat2Z.inj_succ.
    replace (w - Z.of_nat k - 1) with (w - Z.succ (Z.of_nat k)) by lia.
    replace (w - Z.of_nat k) with (Z.succ (w - Z.succ (Z.of_nat k))) by lia.
    rewrite Z.pow_succ_r by lia. set (p := 10 ^ (w - Z.succ (Z.of_nat k))).
    assert (n = 10 * (n / 10) + n mod 10) by (apply Z.div_mod; lia). rewrite H at 3. ring.
Qed.
Lemma fracval_zeros w k : fracval w (repeat 0 k) = 0.
Proof. revert w; induction k; intros w; cbn; auto. Qed.
Lemma trim_spec l : exists k, l = repeat 0 k ++ trim l.
Proof.
  induction l as [|d r IH]; cbn [trim]; [exists 0%nat; auto|].
  destruct (Z.eqb_spec d 0) as [->|]; [destruct IH as [k Hk]; exists (S k); cbn; f_equal; auto|exists 0%nat; auto].
Qed.
Lemma trim_hd l d r : trim l = d :: r -> d <> 0.
Proof.
  induction l as [|x l IH]; cbn [trim]; [discriminate|]. destruct (Z.eqb_spec x 0); auto. congruence.
Qed.
Lemma rev_repeat {A} (a : A) k : rev (repeat a k) = repeat a k.
Proof.
  induction k; cbn; auto. rewrite IHk. clear. induction k; cbn; auto. f_equal; auto.
Qed.
Lemma nanomsd_val ns : 0 <= ns < 10 ^ 9 -> fracval 9 (nanomsd ns) = ns.
Proof.
  intros H. unfold nanomsd. destruct (trim_spec (rev (digits 9 ns))) as [k Hk].
  assert (E : digits 9 ns = rev (trim (rev (digits 9 ns))) ++ repeat 0 k).
  { rewrite <- (rev_involutive (digits 9 ns)) at 1. rewrite Hk at 1. rewrite rev_app_distr, rev_repeat. reflexivity. }
  assert (F := fracval_digits 9 ns 9 ltac:(lia) ltac:(lia) ltac:(lia)).
  rewrite E in F. rewrite fracval_app, fracval_zeros in F. replace (9 - Z.of_nat 9) with 0 in F by reflexivity. lia.
Qed.
Lemma nanomsd_tidy ns : 0 < ns < 10 ^ 9 ->
  nanomsd ns <> [] /\ last (nanomsd ns) 0 <> 0 /\ Forall (fun d => 0 <= d <= 9) (nanomsd ns).
Proof.
  intros H. assert (V := nanomsd_val ns ltac:(lia)). unfold nanomsd in *.
  assert (R := digits_range 9 ns). destruct (trim_spec (rev (digits 9 ns))) as [k Hk].
  destruct (trim (rev (digits 9 ns))) as [|d r] eqn:E; [cbn in V; lia|].
  split; [|split].
  - cbn. destruct (rev r); discriminate.
  - cbn. rewrite last_last. eapply trim_hd; eauto.
  - apply Forall_rev. apply Forall_rev in R. rewrite Hk in R. apply Forall_app in R. tauto.
Qed.

Lemma to_int_sign z : 0 <= z -> exists u, Z.to_int z = Decimal.Pos u /\ Z.of_uint u = z.
Proof.
  intros H. assert (E := DecimalZ.of_to z). destruct z as [|p|p]; try lia; cbn [Z.to_int] in *; eauto.
Qed.
Lemma to_int_neg z : z < 0 -> exists u, Z.to_int z = Decimal.Neg u /\ Z.of_uint u = - z.
Proof.
  intros H. assert (E := DecimalZ.of_to z). destruct z as [|p|p]; try lia; cbn [Z.to_int Z.of_int] in *.
  eexists; split; eauto. lia.
Qed.

Lemma print_ok d t : print_duration d = Some t -> 0 <= d \/ d <= - 10 ^ 9 -> read_ns t = d /\ tidy t.
Proof.
  unfold print_duration. intros H Hd.
  set (a := if d <? 0 then dneg d else Some d) in H.
  destruct a as [a0|] eqn:Ea; [|discriminate]. cbn [obind] in H. injection H as <-.
  assert (Ha : a0 = Z.abs d).
  { unfold a, dneg, sgn64 in Ea. destruct (Z.ltb_spec d 0); [destruct (in_i64 _); [|discriminate]|]; injection Ea as <-; lia. }
  subst a0. clear Ea a.
  assert (Hr : 0 <= Z.rem (Z.abs d) TIMEGRAN < 10 ^ 9) by (unfold TIMEGRAN; lia).
  set (ns := Z.rem (Z.abs d) TIMEGRAN) in *.
  assert (Hf : fracns (if ns =? 0 then None else Some (nanomsd ns)) = ns).
  { destruct (Z.eqb_spec ns 0) as [E|E]; cbn [fracns]; [lia|]. apply nanomsd_val; lia. }
  split.
  - unfold read_ns; cbn [ipart frac]. rewrite Hf. change (10 ^ 9) with TIMEGRAN in *.
    destruct Hd as [Hd|Hd].
    + destruct (to_int_sign (Z.quot d TIMEGRAN)) as (u & -> & ->); [unfold TIMEGRAN; lia|]. unfold ns, TIMEGRAN. lia.
    + destruct (to_int_neg (Z.quot d TIMEGRAN)) as (u & -> & ->); [unfold TIMEGRAN in *; lia|].
      unfold ns. unfold TIMEGRAN in *. lia.
  - unfold tidy; cbn [frac]. destruct (Z.eqb_spec ns 0); auto. apply nanomsd_tidy. lia.
Qed.

Lemma print_total d : in_i64 d = true -> d <> - I64MAX - 1 -> exists t, print_duration d = Some t.
Proof.
  intros H1 H2. unfold print_duration. destruct (Z.ltb_spec d 0); cbn [obind]; eauto.
  unfold dneg, sgn64. assert (in_i64 (- d) = true) as -> by (unfold in_i64 in *; lia). cbn [obind]. eauto.
Qed.

(** Sub-second negative durations print as their absolute value. *)
Lemma print_small_negative d : - 10 ^ 9 < d < 0 -> exists t, print_duration d = Some t /\ read_ns t = - d.
Proof.
  intros H. destruct (print_total d) as [t Ht]; [unfold in_i64, I64MAX; lia|unfold I64MAX; lia|]. exists t; split; auto.
  unfold print_duration in Ht. destruct (Z.ltb_spec d 0); [|lia].
  unfold dneg, sgn64 in Ht. destruct (in_i64 (- d)); [|discriminate]. cbn [obind] in Ht. injection Ht as <-.
  assert (Hq : Z.quot d TIMEGRAN = 0) by (unfold TIMEGRAN; lia). rewrite Hq.
  assert (Hr : Z.rem (- d) TIMEGRAN = - d) by (unfold TIMEGRAN; lia). rewrite Hr.
  destruct (Z.eqb_spec (- d) 0); [lia|].
  cbn [read_ns ipart frac fracns Z.to_int]. rewrite nanomsd_val by lia. reflexivity.
Qed.
