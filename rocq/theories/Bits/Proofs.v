From Coq Require Import ZArith List Lia ZifyBool Bool Znumtheory Zpow_facts.
From Verif.Bits Require Import Model Spec.
Import ListNotations.
Open Scope Z_scope.
Local Ltac Zify.zify_post_hook ::= Z.div_mod_to_equations.

(** ** Bit counting *)
Lemma log2_bit n : 0 < n -> Z.testbit n (Z.log2 n) = true.
Proof. apply Z.bit_log2. Qed.
Lemma log2_lt w n : 0 < n -> word w n -> 0 <= Z.log2 n < w.
Proof.
  intros H [_ H2]. split; [apply Z.log2_nonneg|]. apply Z.log2_lt_pow2; auto.
Qed.
Lemma testbit_high w n i : word w n -> w <= i -> 0 <= w -> Z.testbit n i = false.
Proof.
  intros [H1 H2] Hi Hw. destruct (Z.eq_dec n 0) as [->|]; [apply Z.bits_0|].
  apply Z.bits_above_log2; auto. apply Z.lt_le_trans with w; auto. apply Z.log2_lt_pow2; lia.
Qed.

Lemma clz_some W n : n <> 0 -> clz W n = Some (W - 1 - Z.log2 n).
Proof. unfold clz. intros H. destruct (Z.eqb_spec n 0); tauto. Qed.

Lemma leading0s_ok w n : 0 < w -> word w n -> exists k, leading0s w n = Some k /\ 0 <= k <= w /\
  (forall i, w - k <= i < w -> Z.testbit n i = false) /\ (k < w -> Z.testbit n (w - 1 - k) = true).
Proof.
  intros Hw Hn. unfold leading0s. destruct (Z.eqb_spec n 0) as [->|Hn0]; cbn [negb].
  - exists w. split; auto. split; [lia|]. split; [intros; apply Z.bits_0|lia].
  - rewrite clz_some by auto. cbn [option_map]. eexists; split; [reflexivity|].
    assert (Hp : 0 < n) by (unfold word in Hn; lia). assert (HL := log2_lt w n Hp Hn).
    split; [lia|]. split.
    + intros i Hi. apply Z.bits_above_log2; lia.
    + intros _. replace (w - 1 - (bw w - 1 - Z.log2 n - (bw w - w))) with (Z.log2 n) by lia. apply log2_bit; auto.
Qed.

Lemma ctz_pos_ok p : 0 <= ctz_pos p /\ Z.testbit (Zpos p) (ctz_pos p) = true /\
  forall i, 0 <= i < ctz_pos p -> Z.testbit (Zpos p) i = false.
Proof.
  induction p as [p IH|p IH|]; cbn [ctz_pos].
  - split; [lia|]. split; [reflexivity|lia].
  - destruct IH as (I1 & I2 & I3). split; [lia|].
    assert (E : forall j, 0 <= j -> Z.testbit (Zpos p~0) (1 + j) = Z.testbit (Zpos p) j).
    { intros j Hj. replace (1 + j) with (Z.succ j) by lia. change (Zpos p~0) with (2 * Zpos p).
      rewrite Z.double_bits_succ. reflexivity. }
    split; [rewrite E by lia; auto|].
    intros i Hi. destruct (Z.eq_dec i 0) as [->|]; [reflexivity|].
    replace i with (1 + (i - 1)) by lia. rewrite E by lia. apply I3. lia.
  - split; [lia|]. split; [reflexivity|lia].
Qed.
Lemma ctz_lt w p : 0 <= w -> word w (Zpos p) -> ctz_pos p < w.
Proof.
  intros Hw Hn. destruct (ctz_pos_ok p) as (I1 & I2 & I3).
  destruct (Z.le_gt_cases w (ctz_pos p)); auto.
  rewrite (testbit_high w) in I2 by auto. discriminate.
Qed.

Lemma trailing0s_ok w n : 0 < w -> word w n -> exists k, trailing0s w n = Some k /\ 0 <= k <= w /\
  (forall i, 0 <= i < k -> Z.testbit n i = false) /\ (k < w -> Z.testbit n k = true).
Proof.
  intros Hw Hn. unfold trailing0s. destruct (Z.eqb_spec n 0) as [->|Hn0]; cbn [negb].
  - exists w. split; auto. split; [lia|]. split; [intros; apply Z.bits_0|lia].
  - destruct n as [|p|p]; try (unfold word in Hn; lia). cbn [ctz]. eexists; split; [reflexivity|].
    destruct (ctz_pos_ok p) as (I1 & I2 & I3). assert (H := ctz_lt w p ltac:(lia) Hn).
    split; [lia|]. split; auto.
Qed.

Lemma pop_count p : forall w, word (Z.of_nat w) (Zpos p) ->
  pop_pos p = Z.of_nat (length (filter (fun i => Z.testbit (Zpos p) (Z.of_nat i)) (seq 0 w))).
Proof.
  assert (S0 : forall q b w, length (filter (fun i => Z.testbit (2 * Zpos q + Z.b2z b) (Z.of_nat i)) (seq 1 w)) =
          length (filter (fun i => Z.testbit (Zpos q) (Z.of_nat i)) (seq 0 w))).
  { intros q b w. rewrite <- seq_shift. clear. induction (seq 0 w) as [|a l IH]; auto. cbn [map filter].
    rewrite Nat2Z.inj_succ. rewrite Z.testbit_succ_r by lia. 
    destruct (Z.testbit (Zpos q) (Z.of_nat a)); cbn [length]; lia. }
  induction p as [p IH|p IH|]; intros w Hw; cbn [pop_pos].
  - destruct w as [|w]; [unfold word in Hw; cbn in Hw; lia|].
    cbn [seq filter]. change (Z.testbit (Zpos p~1) (Z.of_nat 0)) with true. cbn iota. cbn [length].
    change (Zpos p~1) with (2 * Zpos p + Z.b2z true). rewrite S0.
    rewrite (IH w). lia. unfold word in *. rewrite Nat2Z.inj_succ, Z.pow_succ_r in Hw by lia. lia.
  - destruct w as [|w]; [unfold word in Hw; cbn in Hw; lia|].
    cbn [seq filter]. change (Z.testbit (Zpos p~0) (Z.of_nat 0)) with false. cbn iota.
    change (Zpos p~0) with (2 * Zpos p + Z.b2z false). rewrite S0.
    rewrite (IH w). lia. unfold word in *. rewrite Nat2Z.inj_succ, Z.pow_succ_r in Hw by lia. lia.
  - destruct w as [|w]; [unfold word in Hw; cbn in Hw; lia|].
    cbn [seq filter]. change (Z.testbit 1 (Z.of_nat 0)) with true. cbn iota. cbn [length].
    enough (filter (fun i => Z.testbit 1 (Z.of_nat i)) (seq 1 w) = []) as -> by reflexivity.
    clear. assert (H : forall a, In a (seq 1 w) -> (1 <= a)%nat) by (intros a Ha; apply in_seq in Ha; lia).
    induction (seq 1 w) as [|a l IH]; auto. cbn [filter].
    rewrite Z.bits_above_log2; [apply IH; intros; apply H; right; auto|lia|].
    specialize (H a (or_introl eq_refl)). change (Z.log2 1) with 0. lia.
Qed.

Lemma all1s_ok w n : 0 < w -> word w n -> all1s w n = Z.of_nat (count_bits true w n).
Proof.
  intros Hw Hn. unfold all1s, popcount, count_bits. destruct n as [|p|p]; [|..].
  - enough (forall l, filter (fun i => eqb (Z.testbit 0 (Z.of_nat i)) true) l = []) as -> by auto.
    induction l as [|a l IH]; auto. cbn [filter]. rewrite Z.bits_0. cbn. auto.
  - rewrite (pop_count p (Z.to_nat w)) by (rewrite Z2Nat.id by lia; auto).
    do 2 f_equal. apply filter_ext. intros a. destruct (Z.testbit (Zpos p) (Z.of_nat a)); auto.
  - unfold word in Hn; lia.
Qed.

Lemma cnot_val w n : word w n -> cnot w n = 2 ^ w - 1 - n.
Proof.
  intros Hn. unfold cnot, wrap, Z.lnot. replace (Z.pred (- n)) with (2 ^ w - 1 - n + (-1) * 2 ^ w) by lia.
  unfold word in Hn. rewrite Z.mod_add by lia. apply Z.mod_small. lia.
Qed.
Lemma cnot_word w n : word w n -> word w (cnot w n).
Proof. intros Hn. rewrite cnot_val by auto. unfold word in *. lia. Qed.
Lemma cnot_bit w n i : word w n -> 0 <= i < w -> Z.testbit (cnot w n) i = negb (Z.testbit n i).
Proof.
  intros Hn Hi. unfold cnot, wrap. rewrite Z.mod_pow2_bits_low by lia. apply Z.lnot_spec; lia.
Qed.

Lemma all0s_ok w n : 0 < w -> word w n -> all0s w n = Z.of_nat (count_bits false w n).
Proof.
  intros Hw Hn. unfold all0s. change (popcount (cnot w n)) with (all1s w (cnot w n)).
  rewrite all1s_ok by (auto using cnot_word). unfold count_bits. do 2 f_equal.
  assert (H : forall i, In i (seq 0 (Z.to_nat w)) -> (i < Z.to_nat w)%nat) by (intros i Hi; apply in_seq in Hi; lia).
  induction (seq 0 (Z.to_nat w)) as [|a l IH]; auto. cbn [filter].
  rewrite cnot_bit; auto; [|specialize (H a (or_introl eq_refl)); lia].
  rewrite IH by (intros; apply H; right; auto). destruct (Z.testbit n (Z.of_nat a)); auto.
Qed.

Lemma low1_ok w n : 0 < w -> word w n -> lowest true w n (low1 w n).
Proof.
  intros Hw Hn. unfold low1, ffs. destruct n as [|p|p].
  - left. split; auto. intros; apply Z.bits_0.
  - right. destruct (ctz_pos_ok p) as (I1 & I2 & I3). assert (H := ctz_lt w p ltac:(lia) Hn).
    replace (1 + ctz_pos p - 1) with (ctz_pos p) by lia. split; [lia|]. split; auto.
  - unfold word in Hn; lia.
Qed.
Lemma low0_ok w n : 0 < w -> word w n -> lowest false w n (low0 w n).
Proof.
  intros Hw Hn. unfold low0. change (ffs (cnot w n)) with (low1 w (cnot w n)).
  destruct (low1_ok w (cnot w n) Hw (cnot_word _ _ Hn)) as [[H1 H2]|(H1 & H2 & H3)]; [left|right].
  - split; auto. intros i Hi. specialize (H2 i Hi). rewrite cnot_bit in H2 by auto.
    destruct (Z.testbit n i); auto.
  - split; auto. rewrite cnot_bit in H2 by (auto; lia). split; [destruct (Z.testbit n _); auto; discriminate|].
    intros i Hi. specialize (H3 i Hi). rewrite cnot_bit in H3 by (auto; lia). destruct (Z.testbit n i); auto.
Qed.
Lemma high1_ok w n : 0 < w -> word w n -> exists k, high1 w n = Some k /\ highest true w n k.
Proof.
  intros Hw Hn. unfold high1. destruct (Z.eqb_spec n 0) as [->|H0].
  - exists 0; split; auto. left; split; auto. intros; apply Z.bits_0.
  - rewrite clz_some by auto. cbn [option_map]. eexists; split; [reflexivity|].
    assert (Hp : 0 < n) by (unfold word in Hn; lia). assert (HL := log2_lt w n Hp Hn).
    right. replace (bw w - (bw w - 1 - Z.log2 n)) with (Z.log2 n + 1) by lia.
    split; [lia|]. split; [replace (Z.log2 n + 1 - 1) with (Z.log2 n) by lia; apply log2_bit; auto|].
    intros i Hi. apply Z.bits_above_log2; lia.
Qed.
Lemma high0_ok w n : 0 < w -> word w n -> exists k, high0 w n = Some k /\ highest false w n k.
Proof.
  intros Hw Hn. unfold high0.
  assert (Hm : wrap w (-1) = 2 ^ w - 1).
  { unfold wrap. replace (-1) with (2 ^ w - 1 + (-1) * 2 ^ w) by lia. unfold word in Hn. rewrite Z.mod_add by lia.
    apply Z.mod_small; lia. }
  assert (E : (n =? wrap w (-1)) = (cnot w n =? 0)). { rewrite Hm, cnot_val by auto. lia. }
  rewrite E. change (if cnot w n =? 0 then Some 0 else option_map (fun c => bw w - c) (clz (bw w) (cnot w n)))
    with (high1 w (cnot w n)).
  destruct (high1_ok w (cnot w n) Hw (cnot_word _ _ Hn)) as (k & -> & [[H1 H2]|(H1 & H2 & H3)]); exists k; split; auto; [left|right].
  - split; auto. intros i Hi. specialize (H2 i Hi). rewrite cnot_bit in H2 by auto.
    destruct (Z.testbit n i); auto.
  - split; auto. rewrite cnot_bit in H2 by (auto; lia). split; [destruct (Z.testbit n _); auto; discriminate|].
    intros i Hi. specialize (H3 i Hi). rewrite cnot_bit in H3 by (auto; lia). destruct (Z.testbit n i); auto.
Qed.

(** ** Powers of two *)
Lemma land_pred_pow2 k : 0 <= k -> Z.land (2 ^ k) (2 ^ k - 1) = 0.
Proof.
  intros Hk. replace (2 ^ k - 1) with (Z.ones k) by (rewrite Z.ones_equiv; lia).
  rewrite Z.land_ones by auto. apply Z.mod_same. assert (0 < 2 ^ k) by (apply Z.pow_pos_nonneg; lia). lia.
Qed.
Lemma land_pred n : 0 < n -> Z.land n (n - 1) = 0 <-> pow2 n.
Proof.
  intros Hn. split.
  - intros H. exists (Z.log2 n). split; [apply Z.log2_nonneg|].
    assert (HL := Z.log2_spec n Hn). destruct (Z.eq_dec n (2 ^ Z.log2 n)) as [|Hne]; auto. exfalso.
    assert (B : Z.testbit (Z.land n (n - 1)) (Z.log2 n) = true).
    { rewrite Z.land_spec, log2_bit by auto. cbn [andb].
      assert (E : Z.log2 (n - 1) = Z.log2 n) by (apply Z.log2_unique; [apply Z.log2_nonneg|lia]).
      rewrite <- E at 1. apply Z.bit_log2. assert (1 <= 2 ^ Z.log2 n) by (apply Z.pow_le_mono_r with (b := 0); try lia; apply Z.log2_nonneg). lia. }
    rewrite H, Z.bits_0 in B. discriminate.
  - intros (k & Hk & ->). apply land_pred_pow2; auto.
Qed.
Lemma is_pow2_ok w n : 0 < w -> word w n -> is_pow2 w n = true <-> pow2 n.
Proof.
  intros Hw Hn. unfold is_pow2. destruct (Z.eqb_spec n 0) as [->|H0].
  - split; [discriminate|]. intros (k & Hk & E). assert (0 < 2 ^ k) by (apply Z.pow_pos_nonneg; lia). lia.
  - unfold word in Hn. unfold wrap. rewrite Z.mod_small by lia. rewrite Z.eqb_eq. apply land_pred. lia.
Qed.
Lemma libPow2_ok n : word 64 n -> libPow2 n = true <-> (n = 0 \/ pow2 n).
Proof.
  intros Hn. unfold libPow2. rewrite Z.eqb_eq. destruct (Z.eq_dec n 0) as [->|H0].
  - rewrite Z.land_0_l. tauto.
  - unfold word in Hn. unfold wrap. rewrite Z.mod_small by lia. rewrite land_pred by lia. tauto.
Qed.

Lemma land_neg_pow2 n k : 0 <= k -> Z.land n (- 2 ^ k) = n - n mod 2 ^ k.
Proof.
  intros Hk. replace (- 2 ^ k) with (Z.lnot (Z.ones k)) by (rewrite Z.ones_equiv; unfold Z.lnot; lia).
  rewrite <- Z.ldiff_land, Z.ldiff_ones_r by auto. rewrite Z.shiftr_div_pow2, Z.shiftl_mul_pow2 by auto.
  assert (0 < 2 ^ k) by (apply Z.pow_pos_nonneg; lia).
  assert (E := Z.div_mod n (2 ^ k) ltac:(lia)). lia.
Qed.
Lemma floor_round n a : 0 < a -> round_down n a (n - n mod a).
Proof.
  intros Ha. assert (E := Z.div_mod n a ltac:(lia)). assert (B := Z.mod_pos_bound n a Ha).
  split; [|lia]. exists (n / a). lia.
Qed.
Lemma floor2u_val w n k : 0 <= k -> word w n -> floor2u w n (2 ^ k) = n - n mod 2 ^ k.
Proof.
  intros Hk Hn. assert (0 < 2 ^ k) by (apply Z.pow_pos_nonneg; lia).
  assert (Hw : 0 <= w). { destruct (Z.le_gt_cases 0 w); auto. unfold word in Hn. rewrite (Z.pow_neg_r 2 w) in Hn by lia. lia. }
  unfold floor2u, wrap. rewrite <- Z.land_ones, Z.land_assoc, Z.land_ones, land_neg_pow2 by auto.
  apply Z.mod_small. assert (B := Z.mod_pos_bound n (2 ^ k) ltac:(lia)).
  assert (n mod 2 ^ k <= n) by (apply Z.mod_le; unfold word in *; lia). unfold word in *. lia.
Qed.
Lemma floor2u_ok w n a : pow2 a -> word w n -> round_down n a (floor2u w n a).
Proof.
  intros (k & Hk & ->) Hn. rewrite floor2u_val by auto. apply floor_round. apply Z.pow_pos_nonneg; lia.
Qed.

Lemma wrap_neg w n : word w n -> wrap w (- n) = if n =? 0 then 0 else 2 ^ w - n.
Proof.
  intros Hn. unfold wrap. destruct (Z.eqb_spec n 0) as [->|H0]; [apply Z.mod_0_l; unfold word in Hn; lia|].
  unfold word in Hn. replace (- n) with (2 ^ w - n + (-1) * 2 ^ w) by lia. rewrite Z.mod_add by lia. apply Z.mod_small; lia.
Qed.
Lemma round_up_neg n a r : round_down (- n) a r -> round_up n a (- r).
Proof. intros [H1 H2]. split; [apply Z.divide_opp_r; auto|lia]. Qed.
Lemma pow2_div_pow2 w a : pow2 a -> word w a -> (a | 2 ^ w) /\ 0 < a /\ 0 <= w.
Proof.
  intros (k & Hk & ->) Hn. unfold word in Hn.
  assert (0 < 2 ^ k) by (apply Z.pow_pos_nonneg; lia).
  assert (Hw : 0 <= w) by (destruct (Z.le_gt_cases 0 w); auto; rewrite (Z.pow_neg_r 2 w) in Hn by lia; lia).
  assert (k < w). { apply (Z.pow_lt_mono_r_iff 2); lia. }
  split; [|lia]. exists (2 ^ (w - k)). rewrite <- Z.pow_add_r by lia. f_equal. lia.
Qed.
(** The unsigned ceiling: exact when the exact answer is representable, else 0. *)
Lemma ceiling2u_ok w n a : pow2 a -> word w a -> word w n ->
  (n <= 2 ^ w - a -> round_up n a (ceiling2u w n a)) /\ (2 ^ w - a < n -> ceiling2u w n a = 0).
Proof.
  intros Ha Hwa Hn. destruct (pow2_div_pow2 w a Ha Hwa) as (Hd & Hap & Hw).
  assert (Hd0 := Hd). destruct Hd as [c Hc].
  assert (Hnw : word w (wrap w (- n))). { unfold wrap, word. apply Z.mod_pos_bound. apply Z.pow_pos_nonneg; lia. }
  assert (Hk := floor2u_ok w _ a Ha Hnw).
  assert (Hv : floor2u w (wrap w (- n)) a = wrap w (- n) - wrap w (- n) mod a).
  { destruct Ha as (k & Hk0 & ->). apply floor2u_val; auto. }
  assert (Hm : wrap w (- n) mod a = (- n) mod a).
  { unfold wrap. symmetry. apply Zmod_div_mod; try lia; auto. }
  unfold ceiling2u. rewrite Hv, Hm. clear Hk Hv.
  assert (B := Z.mod_pos_bound (- n) a Hap). assert (E := Z.div_mod (- n) a ltac:(lia)).
  rewrite (wrap_neg w n) by auto. destruct (Z.eqb_spec n 0) as [->|H0].
  - change (- 0) with 0 in *. rewrite Z.mod_0_l in * by lia. change (0 - 0) with 0. change (- 0) with 0.
    assert (W0 : wrap w 0 = 0) by (unfold wrap; apply Z.mod_0_l; lia). rewrite W0.
    split; intros H; auto. split; [apply Z.divide_0_r|lia].
  - unfold word in *. set (r := (- n) mod a) in *.
    assert (Hneg : wrap w (- (2 ^ w - n - r)) = (n + r) mod 2 ^ w).
    { unfold wrap. replace (- (2 ^ w - n - r)) with (n + r + (-1) * 2 ^ w) by lia. apply Z.mod_add. lia. }
    rewrite Hneg. split; intros H.
    + assert (Hle : n + r <= 2 ^ w - a).
      { assert (Hq : n + r = a * - (- n / a)) by lia. set (q := - (- n / a)) in *.
        assert (q < c) by (apply (Z.mul_lt_mono_pos_l a); lia).
        assert (a * q <= a * (c - 1)) by (apply Z.mul_le_mono_nonneg_l; lia). lia. }
      rewrite Z.mod_small by lia. split; [|lia]. exists (- (- n / a)). lia.
    + assert (Hge : n + r = 2 ^ w).
      { assert (Hq : n + r = a * - (- n / a)) by lia. set (q := - (- n / a)) in *.
        assert (c - 1 < q) by (apply (Z.mul_lt_mono_pos_l a); lia).
        assert (q < c + 1) by (apply (Z.mul_lt_mono_pos_l a); lia).
        assert (q = c) by lia. subst q. lia. }
      rewrite Hge. apply Z.mod_same. lia.
Qed.

(** Signed. *)
Lemma pow_half w : 0 < w -> 2 ^ w = 2 * 2 ^ (w - 1) /\ 0 < 2 ^ (w - 1).
Proof.
  intros. split; [|apply Z.pow_pos_nonneg; lia]. rewrite <- Z.pow_succ_r by lia. f_equal. lia.
Qed.
Lemma pow2_div_half w a : 0 < w -> pow2 a -> sword w a -> (a | 2 ^ (w - 1)) /\ 0 < a.
Proof.
  intros Hw Ha Hs. destruct (pow2_div_pow2 (w - 1) a) as (H1 & H2 & H3); auto.
  destruct Ha as (k & Hk & ->). unfold word, sword in *. assert (0 < 2 ^ k) by (apply Z.pow_pos_nonneg; lia). lia.
Qed.
Lemma sgn_ok w z : sword w z -> sgn w z = Some z.
Proof. intros H. unfold sgn, in_s. unfold sword in H. destruct (_ && _) eqn:E; auto. lia. Qed.
Lemma sgn_inv w z r : sgn w z = Some r -> r = z /\ sword w z.
Proof. unfold sgn, in_s, sword. destruct (_ && _) eqn:E; [|discriminate]. intros H; injection H as <-. split; auto. lia. Qed.
Lemma floor2s_ok w n a : 0 < w -> pow2 a -> sword w a -> sword w n ->
  exists r, floor2s w n a = Some r /\ round_down n a r /\ sword w r.
Proof.
  intros Hw Ha Hsa Hn. destruct (pow2_div_half w a Hw Ha Hsa) as [[c Hc] Hap].
  unfold floor2s. rewrite sgn_ok by (unfold sword in *; lia). cbn [obind].
  assert (Hv : Z.land n (- a) = n - n mod a). { destruct Ha as (k & Hk0 & ->). apply land_neg_pow2; auto. }
  rewrite Hv. assert (B := Z.mod_pos_bound n a Hap). assert (E := Z.div_mod n a ltac:(lia)).
  assert (Hs : sword w (n - n mod a)). { unfold sword in *. split; [|lia].
    assert (- c <= n / a) by (apply Z.div_le_lower_bound; lia).
    assert (a * - c <= a * (n / a)) by (apply Z.mul_le_mono_nonneg_l; lia). lia. }
  rewrite sgn_ok by auto. eexists; split; [reflexivity|]. split; auto. apply floor_round; auto.
Qed.
Lemma ceiling2s_ok w n a : 0 < w -> pow2 a -> sword w a -> sword w n -> n <> - 2 ^ (w - 1) -> n <= 2 ^ (w - 1) - a ->
  exists r, ceiling2s w n a = Some r /\ round_up n a r.
Proof.
  intros Hw Ha Hsa Hn Hmin Hmax. destruct (pow2_div_half w a Hw Ha Hsa) as [[c Hc] Hap].
  unfold ceiling2s. rewrite sgn_ok by (unfold sword in *; lia). cbn [obind].
  destruct (floor2s_ok w (- n) a Hw Ha Hsa) as (r & -> & Hr & Hs); [unfold sword in *; lia|]. cbn [obind].
  apply round_up_neg in Hr. assert (Hr2 := Hr). destruct Hr2 as [[d Hd] Hr2].
  rewrite sgn_ok; [eauto|]. unfold sword in *. split; [lia|].
  assert (d < c) by (apply (Z.mul_lt_mono_pos_r a); lia).
  assert (d * a <= (c - 1) * a) by (apply Z.mul_le_mono_nonneg_r; lia). lia.
Qed.

Lemma libFloor_ok n a : word 64 n -> word 64 a -> pow2 a -> exists r, libFloor n a = Some r /\ round_down n a r.
Proof.
  intros Hn Hwa Ha. unfold libFloor. rewrite (proj2 (libPow2_ok a Hwa)) by auto. eexists; split; [reflexivity|].
  apply (floor2u_ok 64); auto.
Qed.
Lemma libCeiling_ok n a : word 64 n -> word 64 a -> pow2 a -> exists r, libCeiling n a = Some r /\
  (n <= 2 ^ 64 - a -> round_up n a r) /\ (2 ^ 64 - a < n -> r = 0).
Proof.
  intros Hn Hwa Ha. unfold libCeiling, libFloor. rewrite (proj2 (libPow2_ok a Hwa)) by auto. cbn [option_map].
  eexists; split; [reflexivity|]. apply (ceiling2u_ok 64); auto.
Qed.
Lemma libFloor_abort n a : word 64 a -> a <> 0 -> ~ pow2 a -> libFloor n a = None /\ libCeiling n a = None.
Proof.
  intros Hw Ha Hp. unfold libCeiling, libFloor. destruct (libPow2 a) eqn:E; auto.
  apply libPow2_ok in E; auto. tauto.
Qed.

(** ** General rounding *)
Lemma flooru_ok n a : 0 < a -> exists r, flooru n a = Some r /\ round_down n a r.
Proof.
  intros Ha. unfold flooru. destruct (Z.eqb_spec a 0); [lia|]. eexists; split; [reflexivity|].
  assert (B := Z.mod_pos_bound n a Ha). assert (E := Z.div_mod n a ltac:(lia)).
  split; [exists (n / a); lia|lia].
Qed.
Lemma ceilingu_ok w n a : 0 < a -> word w n -> n <= 2 ^ w - a -> exists r, ceilingu w n a = Some r /\ round_up n a r.
Proof.
  intros Ha Hn Hm. unfold ceilingu, flooru. destruct (Z.eqb_spec a 0); [lia|]. cbn [obind]. eexists; split; [reflexivity|].
  assert (B := Z.mod_pos_bound n a Ha). assert (E := Z.div_mod n a ltac:(lia)). unfold word in Hn.
  destruct (Z.eqb_spec n (n / a * a)) as [H|H].
  - split; [exists (n / a); lia|lia].
  - unfold wrap. destruct (Z.eq_dec (n / a * a + a) (2 ^ w)) as [H2|H2]; [|].
    + exfalso. nia.
    + assert (n / a * a + a < 2 ^ w) by nia. rewrite Z.mod_small by nia. split; [exists (n / a + 1); lia|lia].
Qed.
Lemma ceiling_divu_ok w n a : 0 < a -> word w a -> word w n -> n + (a - 1) < 2 ^ w ->
  exists r, ceiling_divu w n a = Some r /\ (r - 1) * a < n <= r * a.
Proof.
  intros Ha Hwa Hn H. unfold ceiling_divu. destruct (Z.eqb_spec a 0); [lia|]. eexists; split; [reflexivity|].
  unfold wrap, word in *. rewrite (Z.mod_small (a - 1)) by lia. rewrite Z.mod_small by lia.
  assert (B := Z.mod_pos_bound (n + (a - 1)) a Ha). assert (E := Z.div_mod (n + (a - 1)) a ltac:(lia)). nia.
Qed.
Lemma quot_nonneg_div n a : 0 <= n -> 0 < a -> Z.quot n a = n / a.
Proof. intros. apply Z.quot_div_nonneg; auto. Qed.
Lemma floors_val w n a : 0 < w -> 0 < a -> sword w a -> sword w n ->
  floors w n a = Some (Z.quot n a * a) /\ (0 <= n -> Z.quot n a * a = n - n mod a) /\
  (n <= 0 -> Z.quot n a * a = n + (- n) mod a).
Proof.
  intros Hw Ha Hsa Hn.
  assert (P : 0 <= n -> Z.quot n a * a = n - n mod a).
  { intros H. rewrite quot_nonneg_div by auto. assert (E := Z.div_mod n a ltac:(lia)). lia. }
  assert (N : n <= 0 -> Z.quot n a * a = n + (- n) mod a).
  { intros H. replace n with (- (- n)) at 1 by lia. rewrite Z.quot_opp_l by lia. rewrite quot_nonneg_div by lia.
    assert (E := Z.div_mod (- n) a ltac:(lia)). lia. }
  split; auto. unfold floors. destruct (Z.eqb_spec a 0); [lia|].
  assert (Habs : Z.abs (Z.quot n a * a) <= Z.abs n /\ (0 <= n -> 0 <= Z.quot n a * a) /\ (n <= 0 -> Z.quot n a * a <= 0)).
  { destruct (Z.le_gt_cases 0 n) as [H|H].
    - rewrite P by auto. assert (B := Z.mod_pos_bound n a Ha). assert (n mod a <= n) by (apply Z.mod_le; lia). lia.
    - rewrite N by lia. assert (B := Z.mod_pos_bound (- n) a Ha). assert ((- n) mod a <= - n) by (apply Z.mod_le; lia). lia. }
  rewrite (sgn_ok w (Z.quot n a)); [cbn [obind]; apply sgn_ok; unfold sword in *; lia|].
  unfold sword in *. nia.
Qed.
Lemma ceilings_ok w n a : 0 < w -> 0 < a -> sword w a -> sword w n -> n <= 2 ^ (w - 1) - a ->
  exists r, ceilings w n a = Some r /\ round_up n a r.
Proof.
  intros Hw Ha Hsa Hn Hm. unfold ceilings. destruct (floors_val w n a Hw Ha Hsa Hn) as (-> & P & N). cbn [obind].
  destruct (Z.ltb_spec n 0) as [H|H]; cbn [orb].
  - eexists; split; [reflexivity|]. assert (B := Z.mod_pos_bound (- n) a Ha). 
    split; [exists (Z.quot n a); lia|]. rewrite N by lia. lia.
  - assert (B := Z.mod_pos_bound n a Ha). destruct (Z.eqb_spec n (Z.quot n a * a)) as [E|E].
    + eexists; split; [reflexivity|]. split; [exists (Z.quot n a); lia|lia].
    + rewrite sgn_ok.
      * eexists; split; [reflexivity|]. split; [exists (Z.quot n a + 1); lia|]. rewrite P by lia. lia.
      * rewrite P in * by lia. unfold sword in *. split; [lia|].
        destruct (Z.eq_dec n (2 ^ (w - 1) - a)); lia.
Qed.
Lemma floors_nonneg w n a : 0 < w -> 0 < a -> sword w a -> sword w n -> 0 <= n ->
  exists r, floors w n a = Some r /\ round_down n a r.
Proof.
  intros Hw Ha Hsa Hn H. destruct (floors_val w n a Hw Ha Hsa Hn) as (-> & P & N). eexists; split; [reflexivity|].
  rewrite P by auto. apply floor_round; auto.
Qed.
(** For a negative n the signed floor rounds up. *)
Lemma floors_neg w n a : 0 < w -> 0 < a -> sword w a -> sword w n -> n < 0 ->
  exists r, floors w n a = Some r /\ round_up n a r.
Proof.
  intros Hw Ha Hsa Hn H. destruct (floors_val w n a Hw Ha Hsa Hn) as (-> & P & N). eexists; split; [reflexivity|].
  rewrite N by lia. assert (B := Z.mod_pos_bound (- n) a Ha). assert (E := Z.div_mod (- n) a ltac:(lia)).
  split; [exists (- (- n / a)); lia|lia].
Qed.
Lemma ceiling_divs_ok w n a : 0 < w -> 0 < a -> sword w a -> 0 <= n -> sword w (n + (a - 1)) ->
  exists r, ceiling_divs w n a = Some r /\ (r - 1) * a < n <= r * a.
Proof.
  intros Hw Ha Hsa Hn H. unfold ceiling_divs. rewrite sgn_ok by (unfold sword in *; lia). cbn [obind].
  rewrite sgn_ok by auto. cbn [obind]. destruct (Z.eqb_spec a 0); [lia|]. rewrite quot_nonneg_div by lia.
  assert (B := Z.mod_pos_bound (n + (a - 1)) a Ha). assert (E := Z.div_mod (n + (a - 1)) a ltac:(lia)).
  rewrite sgn_ok; [|unfold sword in *; nia]. eexists; split; [reflexivity|]. nia.
Qed.
Lemma ilog2_ok w n : 0 < w -> word w n -> exists k, ilog2 w n = Some k /\
  (n = 0 -> k = -1) /\ (n <> 0 -> 0 <= k < w /\ 2 ^ k <= n < 2 ^ (k + 1)).
Proof.
  intros Hw Hn. unfold ilog2. destruct (Z.eqb_spec n 0) as [->|H0].
  - exists (-1). split; auto. split; auto. tauto.
  - rewrite clz_some by auto. cbn [option_map]. eexists; split; [reflexivity|]. split; [tauto|]. intros _.
    assert (Hp : 0 < n) by (unfold word in Hn; lia). assert (HL := log2_lt w n Hp Hn).
    replace (w - 1 - (w - 1 - Z.log2 n)) with (Z.log2 n) by lia. split; auto. apply Z.log2_spec; auto.
Qed.

(** ** Powers *)
Lemma half_facts y : 1 < y -> Z.shiftr y 1 = y / 2 /\ Z.land y 1 = y mod 2 /\ 1 <= y / 2 /\
  Z.log2 y = Z.succ (Z.log2 (y / 2)) /\ y = 2 * (y / 2) + y mod 2 /\ (y mod 2 = 0 \/ y mod 2 = 1).
Proof.
  intros H. split; [rewrite Z.shiftr_div_pow2 by lia; reflexivity|].
  split; [change 1 with (Z.ones 1) at 1; rewrite Z.land_ones by lia; reflexivity|].
  split; [lia|]. split; [|lia].
  destruct (Z.eq_dec (y mod 2) 0).
  - replace y with (2 * (y / 2)) at 1 by lia. apply Z.log2_double; lia.
  - replace y with (2 * (y / 2) + 1) at 1 by lia. apply Z.log2_succ_double; lia.
Qed.

Section MonoidPower.
  Context {T : Type} (mul : T -> T -> T) (one : T).
  Fixpoint mpow (x : T) (n : nat) : T := match n with O => one | S m => mul x (mpow x m) end.
  Hypothesis assoc : forall a b c, mul a (mul b c) = mul (mul a b) c.
  Hypothesis id_l : forall a, mul one a = a.
  Hypothesis id_r : forall a, mul a one = a.
  Lemma mpow_add x a b : mpow x (a + b) = mul (mpow x a) (mpow x b).
  Proof. induction a as [|a IH]; cbn [Nat.add mpow]; [rewrite id_l; auto|rewrite IH, assoc; auto]. Qed.
  Lemma mpow_comm x a b : mul (mpow x a) (mpow x b) = mul (mpow x b) (mpow x a).
  Proof. rewrite <- !mpow_add. f_equal. lia. Qed.
  Lemma exp_loop_mono x : forall fuel y a b, 1 <= y -> (Z.log2 y < Z.of_nat fuel) ->
    exp_loop (fun u v => Some (mul u v)) fuel y (mpow x a) (mpow x b) = Some (Some (mpow x (b * Z.to_nat y + a))).
  Proof.
    induction fuel as [|f IH]; intros y a b Hy Hf; [assert (H := Z.log2_nonneg y); lia|].
    cbn [exp_loop]. destruct (Z.ltb_spec 1 y) as [H1|H1].
    - destruct (half_facts y H1) as (-> & -> & Hh & Hlog & Hy2 & Hp).
      set (h := y / 2) in *. set (p := y mod 2) in *. clearbody h p.
      destruct (Z.eqb_spec p 1) as [E|E].
      + rewrite <- !mpow_add. rewrite IH by lia. do 3 f_equal. nia.
      + rewrite <- mpow_add. rewrite IH by lia. do 3 f_equal. nia.
    - assert (y = 1) by lia. subst. rewrite <- mpow_add. do 3 f_equal. lia.
  Qed.
  Lemma exp_poly_ok x y : 0 <= y ->
    exp_poly (fun u v => Some (mul u v)) one x y = Some (Some (mpow x (Z.to_nat y))).
  Proof.
    intros Hy. unfold exp_poly. destruct (Z.eqb_spec y 0) as [->|H]; auto.
    assert (E1 : mpow x 1 = x) by (cbn; apply id_r).
    rewrite <- E1 at 1. change one with (mpow x 0) at 1. rewrite exp_loop_mono by lia.
    do 3 f_equal. lia.
  Qed.
End MonoidPower.

(** signed: every intermediate product divides the result in absolute value *)
Lemma abs_pow_le x a b : x <> 0 -> 0 <= a <= b -> Z.abs (x ^ a) <= Z.abs (x ^ b).
Proof.
  intros Hx H. rewrite !Z.abs_pow. apply Z.pow_le_mono_r; lia.
Qed.
Lemma sword_pow w x a b : 0 < w -> Z.abs x <> 1 -> x <> 0 -> 0 <= a < b -> sword w (x ^ b) -> sword w (x ^ a).
Proof.
  intros Hw Hx H0 H Hs. assert (HP := pow_half w Hw).
  assert (L : Z.abs (x ^ a) * 2 <= Z.abs (x ^ b)).
  { rewrite !Z.abs_pow. replace b with ((b - a) + a) by lia. rewrite Z.pow_add_r by lia.
    assert (2 <= Z.abs x ^ (b - a)). { replace (b - a) with (Z.succ (b - a - 1)) by lia. rewrite Z.pow_succ_r by lia.
      assert (0 < Z.abs x ^ (b - a - 1)) by (apply Z.pow_pos_nonneg; lia). nia. }
    assert (0 <= Z.abs x ^ a) by (apply Z.pow_nonneg; lia). nia. }
  unfold sword in *. lia.
Qed.
Lemma exps_loop w x : 0 < w -> Z.abs x <> 1 -> x <> 0 -> forall fuel y a b, 1 <= y -> 1 <= b -> 0 <= a < b -> Z.log2 y < Z.of_nat fuel ->
  sword w (x ^ (b * y + a)) ->
  exp_loop (fun u v => sgn w (u * v)) fuel y (x ^ a) (x ^ b) = Some (Some (x ^ (b * y + a))).
Proof.
  intros Hw Hx1 Hx0. induction fuel as [|f IH]; intros y a b Hy Hb Ha Hf Hs; [assert (H := Z.log2_nonneg y); lia|].
  cbn [exp_loop]. destruct (Z.ltb_spec 1 y) as [H1|H1].
  - destruct (half_facts y H1) as (-> & -> & Hh & Hlog & Hy2 & Hp).
    set (h := y / 2) in *. set (p := y mod 2) in *. clearbody h p.
    assert (Hww : sgn w (x ^ b * x ^ b) = Some (x ^ (b + b))).
    { rewrite <- Z.pow_add_r by lia. apply sgn_ok.
      destruct (Z.eq_dec (b + b) (b * y + a)) as [->|]; auto. apply sword_pow with (b * y + a); auto; nia. }
    destruct (Z.eqb_spec p 1) as [E|E].
    + assert (Hop : sgn w (x ^ a * x ^ b) = Some (x ^ (a + b))).
      { rewrite <- Z.pow_add_r by lia. apply sgn_ok. apply sword_pow with (b * y + a); auto; nia. }
      rewrite Hop, Hww. assert (EQ : b * y + a = (b + b) * h + (a + b)) by (subst p; rewrite Hy2; ring).
      rewrite EQ in *. apply IH; auto; lia.
    + rewrite Hww. assert (EQ : b * y + a = (b + b) * h + a) by (assert (p = 0) by lia; subst p; rewrite Hy2; ring).
      rewrite EQ in *. apply IH; auto; lia.
  - assert (y = 1) by lia. subst. f_equal. rewrite <- Z.pow_add_r by lia.
    replace (b * 1 + a) with (b + a) in * by lia. apply sgn_ok; auto.
Qed.
Lemma exps_loop0 w : 0 < 2 ^ (w - 1) -> forall fuel y op, 0 < y -> Z.log2 y < Z.of_nat fuel ->
  exp_loop (fun u v => sgn w (u * v)) fuel y op 0 = Some (Some 0).
Proof.
  intros Hw. assert (S0 : sgn w 0 = Some 0) by (apply sgn_ok; unfold sword; lia).
  induction fuel as [|f IH]; intros y op Hy Hf; [assert (H0 := Z.log2_nonneg y); lia|]. cbn [exp_loop].
  rewrite Z.mul_0_r, !Z.mul_0_l, S0. destruct (Z.ltb_spec 1 y) as [H1|H1]; auto.
  destruct (half_facts y H1) as (-> & -> & Hh & Hlog & Hy2 & Hp).
  destruct (_ =? 1); apply IH; lia.
Qed.
Lemma exps_loopm w : 2 <= 2 ^ (w - 1) -> forall fuel y a b, (a = 1 \/ a = -1) -> (b = 1 \/ b = -1) -> 1 <= y -> Z.log2 y < Z.of_nat fuel ->
  exp_loop (fun u v => sgn w (u * v)) fuel y a b = Some (Some (b ^ y * a)).
Proof.
  intros Hw. assert (Sab : forall u v, (u = 1 \/ u = -1) -> (v = 1 \/ v = -1) -> sgn w (u * v) = Some (u * v)).
  { intros u v Hu Hv. apply sgn_ok. unfold sword. set (h := 2 ^ (w - 1)) in *. clearbody h. destruct Hu, Hv; subst; lia. }
  induction fuel as [|f IH]; intros y a b Ha Hb Hy Hf; [assert (H0 := Z.log2_nonneg y); lia|]. cbn [exp_loop].
  destruct (Z.ltb_spec 1 y) as [H1|H1].
  - destruct (half_facts y H1) as (-> & -> & Hh & Hlog & Hy2 & Hp).
    set (h := y / 2) in *. set (p := y mod 2) in *. clearbody h p. clear Hw.
    assert (Hbb : b * b = 1) by (destruct Hb; subst; reflexivity).
    assert (Hb2 : b ^ (2 * h) = 1) by (rewrite Z.pow_mul_r, Z.pow_2_r, Hbb, Z.pow_1_l by lia; auto).
    assert (Hab : a * b = 1 \/ a * b = -1) by (destruct Ha, Hb; subst; auto).
    rewrite !Sab by auto. rewrite Hbb.
    destruct (Z.eqb_spec p 1) as [E|E].
    + rewrite IH by (auto; lia). rewrite Z.pow_1_l by lia. do 2 f_equal. rewrite Hy2, E, Z.pow_add_r, Hb2 by lia. lia.
    + rewrite IH by (auto; lia). rewrite Z.pow_1_l by lia. do 2 f_equal. replace y with (2 * h) by lia. rewrite Hb2. lia.
  - assert (y = 1) by lia. subst. rewrite Sab by auto. rewrite Z.pow_1_r. auto.
Qed.
Lemma exps_ok w x y : 0 < w -> 0 <= y -> sword w x -> sword w (x ^ y) -> ~ (x = -1 /\ w <= y) ->
  exps w x y = Some (Some (x ^ y)).
Proof.
  intros Hw Hy Hx Hs Hn. assert (HP := pow_half w Hw). unfold exps. destruct (Z.eqb_spec y 0) as [->|Hy0]; auto.
  destruct (Z.eqb_spec x 1) as [->|Hx1]; [rewrite Z.pow_1_l by lia; auto|].
  destruct (Z.eqb_spec x 2) as [->|Hx2].
  - assert (E : Z.shiftl 2 (y - 1) = 2 ^ y).
    { rewrite Z.shiftl_mul_pow2 by lia. rewrite <- Z.pow_succ_r by lia. f_equal; lia. }
    rewrite E. assert (y < w). { unfold sword in Hs. destruct (Z.le_gt_cases w y); auto.
      assert (2 ^ w <= 2 ^ y) by (apply Z.pow_le_mono_r; lia). lia. }
    destruct (Z.leb_spec w (y - 1)); [lia|]. rewrite sgn_ok; auto.
  - assert (Hlf : Z.log2 y < Z.of_nat (S (Z.to_nat (Z.log2 y)))) by (assert (G := Z.log2_nonneg y); lia).
    destruct (Z.eq_dec x 0) as [->|Hx0].
    + rewrite Z.pow_0_l by lia. destruct (Z.leb_spec w y); auto.
      apply exps_loop0; auto; lia.
    + destruct (Z.leb_spec w y) as [Hwy|Hwy].
      * exfalso. assert (x <> -1) by tauto. assert (2 ^ y <= Z.abs (x ^ y)).
        { rewrite Z.abs_pow. apply Z.pow_le_mono_l. lia. }
        assert (2 ^ w <= 2 ^ y) by (apply Z.pow_le_mono_r; lia). unfold sword in Hs. lia.
      * destruct (Z.eq_dec x (-1)) as [->|Hxm].
        -- assert (2 ^ 1 <= 2 ^ (w - 1)) by (apply Z.pow_le_mono_r; lia).
           rewrite exps_loopm; auto; try lia. rewrite Z.mul_1_r. auto.
        -- assert (G := exps_loop w x Hw ltac:(lia) Hx0 (S (Z.to_nat (Z.log2 y))) y 0 1 ltac:(lia) ltac:(lia) ltac:(lia) Hlf).
           replace (1 * y + 0) with y in G by lia. rewrite Z.pow_0_r, Z.pow_1_r in G. apply G; auto.
Qed.

(** unsigned: the value is right modulo 2^w whenever fewer than w factors are multiplied, so exact when representable *)
Lemma expu_loop w : 0 <= w -> forall fuel y op b, 1 <= y -> Z.log2 y < Z.of_nat fuel ->
  exists r, exp_loop (fun u v => Some (wrap w (u * v))) fuel y op b = Some (Some r) /\ r = (b ^ y * op) mod 2 ^ w.
Proof.
  intros Hw. assert (HM : 0 < 2 ^ w) by (apply Z.pow_pos_nonneg; lia). unfold wrap. set (M := 2 ^ w) in *. clearbody M.
  assert (PM : forall c k, 0 <= k -> (c mod M) ^ k mod M = c ^ k mod M).
  { intros c k Hk. symmetry. apply Zpower_mod. auto. }
  induction fuel as [|f IH]; intros y op b Hy Hf; [assert (H0 := Z.log2_nonneg y); lia|]. cbn [exp_loop].
  destruct (Z.ltb_spec 1 y) as [H1|H1].
  - destruct (half_facts y H1) as (-> & -> & Hh & Hlog & Hy2 & Hp).
    set (h := y / 2) in *. set (p := y mod 2) in *. clearbody h p.
    destruct (Z.eqb_spec p 1) as [E|E].
    + destruct (IH h (op * b mod M) (b * b mod M) ltac:(lia) ltac:(lia)) as (r & -> & ->).
      eexists; split; [reflexivity|]. rewrite Zmult_mod_idemp_r.
      rewrite <- (Zmult_mod_idemp_l (_ ^ _)). rewrite PM by lia. rewrite Zmult_mod_idemp_l. f_equal.
      rewrite Hy2, E, Z.pow_add_r, Z.pow_mul_r, Z.pow_1_r, Z.pow_2_r by lia. ring.
    + destruct (IH h op (b * b mod M) ltac:(lia) ltac:(lia)) as (r & -> & ->).
      eexists; split; [reflexivity|].
      rewrite <- (Zmult_mod_idemp_l (_ ^ _)). rewrite PM by lia. rewrite Zmult_mod_idemp_l. f_equal.
      replace y with (2 * h) by lia. rewrite Z.pow_mul_r, Z.pow_2_r by lia. ring.
  - assert (y = 1) by lia. subst. eexists; split; [reflexivity|]. rewrite Z.pow_1_r. reflexivity.
Qed.
Lemma expu_ok w x y : 0 < w -> 0 <= y -> word w x -> word w (x ^ y) -> expu w x y = Some (Some (x ^ y)).
Proof.
  intros Hw Hy Hx Hs. unfold expu. destruct (Z.eqb_spec y 0) as [->|Hy0]; auto.
  destruct (Z.eqb_spec x 1) as [->|Hx1]; [rewrite Z.pow_1_l by lia; auto|].
  destruct (Z.eqb_spec x 2) as [->|Hx2].
  - assert (E : Z.shiftl 2 (y - 1) = 2 ^ y).
    { rewrite Z.shiftl_mul_pow2 by lia. rewrite <- Z.pow_succ_r by lia. f_equal; lia. }
    rewrite E. assert (y < w). { unfold word in Hs. apply (Z.pow_lt_mono_r_iff 2); lia. }
    destruct (Z.leb_spec w (y - 1)); [lia|]. unfold wrap. rewrite Z.mod_small by (unfold word in *; lia). auto.
  - destruct (Z.leb_spec w y) as [Hwy|Hwy].
    + destruct (Z.eq_dec x 0) as [->|]; [rewrite Z.pow_0_l by lia; auto|]. exfalso.
      unfold word in *. assert (2 ^ y <= x ^ y) by (apply Z.pow_le_mono_l; lia).
      assert (2 ^ w <= 2 ^ y) by (apply Z.pow_le_mono_r; lia). lia.
    + assert (G := Z.log2_nonneg y).
      destruct (expu_loop w ltac:(lia) (S (Z.to_nat (Z.log2 y))) y 1 x ltac:(lia) ltac:(lia)) as (r & -> & ->).
      rewrite Z.mul_1_r, Z.mod_small by (unfold word in *; lia). auto.
Qed.

(** ** Fixed-point logarithm: the integer part is the floor of log2 *)
Lemma table_facts : forallb (fun k => match nth_error log_table k, nth_error log_table (k + 1), nth_error log_table (k + 2) with
   | Some y0, Some y1, Some y2 => (0 <=? y0) && (y0 <? y1) && (y1 <=? 2 ^ 32) && (y2 - y0 - (y1 - y0) * 2 <=? 0)
       && (- (y2 - y0 - (y1 - y0) * 2) <=? 2 ^ 16 * 2 ^ 10 ) && (- (y2 - y0 - (y1 - y0) * 2) <=? 2 * (y1 - y0)) && (y1 - y0 <? 2 ^ 27)
   | _, _, _ => false end) (seq 0 64) = true.
Proof. vm_compute. reflexivity. Qed.

Lemma log2_u32_32_ok val : word 64 val -> 1 < val -> val < 2 ^ 64 ->
  exists r, log2_u32_32 val = Some r /\ r / 2 ^ 32 = Z.log2 val /\ 0 <= r < 2 ^ 64.
Proof.
  intros Hv H1 _. unfold log2_u32_32. rewrite clz_some by lia. cbn [obind].
  set (L := Z.log2 val). assert (HL : 0 <= L < 64) by (apply log2_lt; auto; lia).
  assert (HL1 : 1 <= L). { unfold L. change 1 with (Z.log2 2). apply Z.log2_le_mono. lia. }
  replace (64 - 1 - L + 1) with (64 - L) by lia. replace (64 - 1 - (64 - 1 - L)) with L by lia.
  destruct (Z.leb_spec 64 (64 - L)); [lia|].
  set (frac := Z.shiftr (wrap 64 (Z.shiftl val (64 - L))) 32).
  assert (Hf : 0 <= frac < 2 ^ 32).
  { unfold frac. rewrite Z.shiftr_div_pow2 by lia. unfold wrap.
    assert (B := Z.mod_pos_bound (Z.shiftl val (64 - L)) (2 ^ 64) ltac:(lia)).
    split; [apply Z.div_pos; lia|]. apply Z.div_lt_upper_bound; lia. }
  rewrite (Z.shiftr_div_pow2 frac 26), (Z.shiftl_mul_pow2 _ 26) by lia.
  change (2 ^ 32) with 4294967296 in *. change (2 ^ 26) with 67108864.
  assert (Hi : 0 <= frac / 67108864 < 64) by lia.
  set (idx := frac / 67108864) in *.
  set (u := frac - idx * 67108864). assert (Hu : 0 <= u < 67108864) by (unfold u, idx; lia).
  rewrite sgn_ok by (unfold sword; change (2 ^ (64 - 1)) with 9223372036854775808; lia). cbn [obind].
  assert (T := table_facts). rewrite forallb_forall in T.
  specialize (T (Z.to_nat idx) ltac:(apply in_seq; lia)).
  unfold tab. destruct (Z.ltb_spec (idx + 0) 0); [lia|]. destruct (Z.ltb_spec (idx + 1) 0); [lia|].
  destruct (Z.ltb_spec (idx + 2) 0); [lia|].
  replace (Z.to_nat (idx + 0)) with (Z.to_nat idx) by lia.
  replace (Z.to_nat (idx + 1)) with (Z.to_nat idx + 1)%nat by lia.
  replace (Z.to_nat (idx + 2)) with (Z.to_nat idx + 2)%nat by lia.
  destruct (nth_error log_table (Z.to_nat idx)) as [y0|]; [|discriminate].
  destruct (nth_error log_table (Z.to_nat idx + 1)) as [y1|]; [|discriminate].
  destruct (nth_error log_table (Z.to_nat idx + 2)) as [y2|]; [|discriminate]. cbn [obind].
  set (f1 := y1 - y0) in *. set (a := y2 - y0 - f1 * 2) in *.
  change (2 ^ 32) with 4294967296 in T. change (2 ^ 16 * 2 ^ 10) with 67108864 in T. change (2 ^ 27) with 134217728 in T.
  assert (Ta : 0 <= y0 /\ y0 < y1 /\ y1 <= 4294967296 /\ a <= 0 /\ - a <= 67108864 /\ - a <= 2 * f1 /\ f1 < 134217728) by lia.
  clear T. clearbody a. destruct Ta as (T1 & T2 & T3 & T4 & T5 & T6 & T7).
  change (2 ^ (64 - 1)) with 9223372036854775808 in *.
  rewrite sgn_ok by (unfold sword; change (2 ^ (64 - 1)) with 9223372036854775808; nia). cbn [obind].
  rewrite (Z.shiftr_div_pow2 _ 26) by lia. change (2 ^ 26) with 67108864.
  set (q := a * u / 67108864).
  assert (Hq : 67108864 * q <= a * u < 67108864 * q + 67108864) by (unfold q; lia).
  assert (Hq2 : a - 1 <= q <= 0) by (split; nia).
  set (s := q + (f1 * 2 - a)). assert (Hs : -1 <= s <= 4 * f1) by (unfold s; lia).
  assert (Hf1 : 0 < f1) by (unfold f1; lia).
  rewrite sgn_ok by (unfold sword; change (2 ^ (64 - 1)) with 9223372036854775808; nia). cbn [obind].
  rewrite (Z.shiftr_div_pow2 _ 27) by lia. change (2 ^ 27) with 134217728.
  (* s * u < 2^27 * f1 *)
  assert (Hup : s * u < 134217728 * f1).
  { assert (67108864 * (s * u) <= (a * u + 67108864 * (2 * f1 - a)) * u).
    { assert (67108864 * s <= a * u + 67108864 * (2 * f1 - a)) by (unfold s; lia). nia. }
    assert (E : (a * u + 67108864 * (2 * f1 - a)) * u = 67108864 * 134217728 * f1 - (67108864 - u) * (134217728 * f1 + a * u)) by ring.
    assert (P : 0 < 134217728 * f1 + a * u) by nia.
    assert (0 < (67108864 - u) * (134217728 * f1 + a * u)) by (apply Z.mul_pos_pos; lia). lia. }
  assert (Hlo : 0 <= s * u).
  { assert (0 <= s \/ s = -1) as [|E] by lia; [nia|].
    assert (u = 0 \/ 1 <= u) as [->|Hu1] by lia; [lia|]. exfalso.
    assert (q = a - 1 - (2*f1 - 2*a) ) by (unfold s in E; lia). nia. }
  set (t := s * u / 134217728). assert (Ht : 0 <= t < f1) by (unfold t; lia).
  eexists; split; [reflexivity|]. rewrite Z.shiftl_mul_pow2 by lia. change (2 ^ 32) with 4294967296. unfold wrap.
  change (2 ^ 64) with 18446744073709551616.
  assert (Hy : 0 <= y0 + t < 4294967296) by (unfold f1 in *; lia).
  rewrite Z.mod_small by lia. split; [|lia]. lia.
Qed.
