From Coq Require Import ZArith List Bool Lia ZifyBool.
From Verif Require Import Leb.Model Leb.Spec.
Import ListNotations.
Open Scope Z_scope.

Lemma lor_add a b k : 0 <= k -> 0 <= a < 2 ^ k -> Z.lor a (Z.shiftl b k) = a + b * 2 ^ k.
Proof.
  intros Hk Ha. assert (E : Z.land a (Z.shiftl b k) = 0).
  { apply Z.bits_inj'. intros n Hn. rewrite Z.land_spec, Z.bits_0. destruct (Z.lt_ge_cases n k) as [L|L].
    - rewrite Z.shiftl_spec_low by lia. apply andb_false_r.
    - destruct (Z.eq_dec a 0) as [->|Z0]; [rewrite Z.bits_0; reflexivity|]. rewrite Z.bits_above_log2; [reflexivity|lia|]. apply Z.log2_lt_pow2; [lia|].
      apply Z.lt_le_trans with (2 ^ k); [lia|]. apply Z.pow_le_mono_r; lia. }
  rewrite <- Z.lxor_lor by exact E. rewrite <- Z.add_nocarry_lxor by exact E. rewrite Z.shiftl_mul_pow2 by exact Hk. reflexivity.
Qed.
Lemma land127 b : Z.land b 127 = b mod 128.
Proof. change 127 with (Z.ones 7). apply Z.land_ones. lia. Qed.
Lemma land_bit b k : 0 <= k -> Z.land b (2 ^ k) = if Z.testbit b k then 2 ^ k else 0.
Proof.
  intros Hk. apply Z.bits_inj'. intros n Hn. rewrite Z.land_spec, Z.pow2_bits_eqb by lia. destruct (Z.eqb_spec k n) as [->|Hne].
  - rewrite andb_true_r. destruct (Z.testbit b n); [rewrite Z.pow2_bits_true by lia; reflexivity|rewrite Z.bits_0; reflexivity].
  - rewrite andb_false_r. destruct (Z.testbit b k); [rewrite Z.pow2_bits_false by lia; reflexivity|rewrite Z.bits_0; reflexivity].
Qed.
Lemma bit_div b k : 0 <= k -> 0 <= b < 2 ^ (k + 1) -> (Z.land b (2 ^ k) =? 0) = (b <? 2 ^ k).
Proof.
  intros Hk Hb. rewrite land_bit by exact Hk. assert (P : 0 < 2 ^ k) by (apply Z.pow_pos_nonneg; lia). rewrite Z.pow_add_r in Hb by lia.
  rewrite Z.testbit_odd, Z.shiftr_div_pow2 by lia. destruct (Z.ltb_spec b (2 ^ k)) as [L|L].
  - rewrite Z.div_small by lia. reflexivity.
  - assert (b / 2 ^ k = 1) as ->; [|change (Z.odd 1) with true; cbn iota; lia]. symmetry. apply Z.div_unique with (b - 2 ^ k); lia.
Qed.
Lemma land128 b : 0 <= b < 256 -> (Z.land b 128 =? 0) = (b <? 128).
Proof. intros H. apply (bit_div b 7); [lia|exact H]. Qed.
Lemma land64 b : 0 <= b < 128 -> (Z.land b 64 =? 0) = (b <? 64).
Proof. intros H. apply (bit_div b 6); [lia|exact H]. Qed.
(** a truncated shift *)
Lemma shift_mod x s : 0 <= s < 64 -> Z.shiftl x s mod W = Z.shiftl (x mod 2 ^ (64 - s)) s.
Proof.
  intros Hs. rewrite !Z.shiftl_mul_pow2 by lia. unfold W. replace (2 ^ 64) with (2 ^ (64 - s) * 2 ^ s) by (rewrite <- Z.pow_add_r by lia; f_equal; lia).
  apply Z.mul_mod_distr_r; apply Z.pow_nonzero; lia.
Qed.
Lemma unsigned_cons b l : l <> [] -> unsigned_value (b :: l) = (b - 128) + 128 * unsigned_value l.
Proof. destruct l; [congruence|reflexivity]. Qed.
Lemma signed_cons b l : l <> [] -> signed_value (b :: l) = (b - 128) + 128 * signed_value l.
Proof. destruct l; [congruence|reflexivity]. Qed.
Lemma digits_ne l : digits l -> l <> [].
Proof. intros []; discriminate. Qed.
Lemma unsigned_range l : digits l -> 0 <= unsigned_value l < 2 ^ (7 * Z.of_nat (length l)).
Proof.
  induction 1 as [b Hb|b l Hb Hl IH]; [cbn; lia|]. rewrite unsigned_cons by (apply digits_ne, Hl). cbn [length]. replace (7 * Z.of_nat (S (length l))) with (7 + 7 * Z.of_nat (length l)) by lia.
  rewrite Z.pow_add_r by lia. change (2 ^ 7) with 128. lia.
Qed.
Lemma loop_ok l : digits l -> forall rest s r, 0 <= s -> 0 <= r < 2 ^ s -> s + 7 * (Z.of_nat (length l) - 1) <= 63 ->
  loop (l ++ rest) s r = Ok ((r + unsigned_value l * 2 ^ s) mod W, last l 0, s + 7 * Z.of_nat (length l), rest).
Proof.
  induction 1 as [b Hb|b l Hb Hl IH]; intros rest s r Hs Hr Hl63.
  - cbn [app loop length last unsigned_value]. cbn [length] in Hl63. destruct (Z.leb_spec 64 s); [lia|]. rewrite land127, land128, (Z.mod_small b 128) by lia. destruct (Z.ltb_spec b 128); [|lia].
    rewrite shift_mod by lia. rewrite lor_add by lia. do 4 f_equal.
    assert (P : 0 < 2 ^ s) by (apply Z.pow_pos_nonneg; lia). assert (Q : 0 < 2 ^ (64 - s)) by (apply Z.pow_pos_nonneg; lia). assert (Wq : W = 2 ^ (64 - s) * 2 ^ s) by (unfold W; rewrite <- Z.pow_add_r by lia; f_equal; lia).
    assert (M := Z.mod_pos_bound b (2 ^ (64 - s)) Q). symmetry. rewrite (Z.div_mod b (2 ^ (64 - s))) at 1 by lia.
    replace (r + (2 ^ (64 - s) * (b / 2 ^ (64 - s)) + b mod 2 ^ (64 - s)) * 2 ^ s) with (r + b mod 2 ^ (64 - s) * 2 ^ s + (b / 2 ^ (64 - s)) * W) by (rewrite Wq; ring).
    rewrite Z_mod_plus_full. apply Z.mod_small. rewrite Wq. nia.
  - assert (Hn := digits_ne _ Hl). assert (L1 : (1 <= length l)%nat) by (destruct l; [congruence|cbn [length]; lia]). cbn [app loop length] in *. destruct (Z.leb_spec 64 s); [lia|].
    rewrite land127, land128 by lia. destruct (Z.ltb_spec b 128); [lia|]. assert (b mod 128 = b - 128) as -> by (symmetry; apply Z.mod_unique with 1; lia).
    rewrite shift_mod by lia. rewrite (Z.mod_small (b - 128)).
    2: { split; [lia|]. apply Z.lt_le_trans with (2 ^ 7); [change (2 ^ 7) with 128; lia|]. apply Z.pow_le_mono_r; lia. }
    rewrite lor_add by lia. assert (P : 2 ^ (s + 7) = 2 ^ s * 128) by (rewrite Z.pow_add_r by lia; reflexivity). rewrite IH; [|lia|nia|lia].
    rewrite unsigned_cons by exact Hn. f_equal. f_equal. f_equal.
    + f_equal; [f_equal; rewrite P; ring|]. destruct l; [congruence|reflexivity].
    + lia.
Qed.
Lemma loop_long l : forall rest s r b, Forall (fun b => 128 <= b < 256) l -> s + 7 * Z.of_nat (length l) >= 64 -> 0 <= s -> loop (l ++ b :: rest) s r = Undef.
Proof.
  induction l as [|x l IH]; intros rest s r b H Hl Hs; cbn [app loop length] in *.
  - destruct (Z.leb_spec 64 s); [reflexivity|lia].
  - inversion H as [|y z Hx Hz]; subst. destruct (Z.leb_spec 64 s); [reflexivity|]. rewrite land128 by lia. destruct (Z.ltb_spec x 128); [lia|]. apply IH; [exact Hz|lia|lia].
Qed.
Lemma signed_unsigned l : digits l -> signed_value l = unsigned_value l - (if last l 0 <? 64 then 0 else 2 ^ (7 * Z.of_nat (length l))) /\ 0 <= last l 0 < 128.
Proof.
  induction 1 as [b Hb|b l Hb Hl [IH IL]].
  - cbn [signed_value unsigned_value last length]. change (2 ^ (7 * Z.of_nat 1)) with 128. destruct (b <? 64); split; lia.
  - assert (Hn := digits_ne _ Hl). assert (last (b :: l) 0 = last l 0) as -> by (destruct l; [congruence|reflexivity]). split; [|exact IL].
    rewrite signed_cons, unsigned_cons, IH by exact Hn. cbn [length]. replace (7 * Z.of_nat (S (length l))) with (7 + 7 * Z.of_nat (length l)) by lia. rewrite Z.pow_add_r by lia. change (2 ^ 7) with 128. destruct (last l 0 <? 64); lia.
Qed.
Lemma signed_mod x : signed (x mod W) mod W = x mod W.
Proof. unfold signed. assert (M := Z.mod_pos_bound x W eq_refl). destruct (x mod W <? 2 ^ 63); [apply Z.mod_small; lia|]. replace (x mod W - W) with (x mod W + (-1) * W) by ring. rewrite Z_mod_plus_full. apply Z.mod_small; lia. Qed.
Lemma sleb_ok l rest : digits l -> (length l <= 10)%nat -> read_sleb128 (l ++ rest) = Ok (signed (signed_value l mod W), rest).
Proof.
  intros Hl Hn. unfold read_sleb128. assert (R := unsigned_range _ Hl). rewrite (loop_ok l Hl rest 0 0) by lia. cbn [bind]. rewrite Z.mul_1_r, !Z.add_0_l.
  destruct (signed_unsigned _ Hl) as [-> IL]. rewrite land64 by exact IL. set (s := 7 * Z.of_nat (length l)) in *. do 3 f_equal.
  destruct (Z.ltb_spec (last l 0) 64) as [L|L]; cbn [negb]; [rewrite andb_false_r, Z.sub_0_r; reflexivity|]. rewrite andb_true_r. destruct (Z.ltb_spec s 64) as [S6|S6].
  - assert (P : 0 < 2 ^ s) by (apply Z.pow_pos_nonneg; unfold s; lia). assert (S0 : 0 <= s) by (unfold s; lia). assert (Q : 1 <= 2 ^ (64 - s)) by (change 1 with (2 ^ 0); apply Z.pow_le_mono_r; lia).
    assert (Wq : W = 2 ^ (64 - s) * 2 ^ s) by (unfold W; rewrite <- Z.pow_add_r by lia; f_equal; lia).
    rewrite Z.shiftl_mul_pow2, Z.mul_1_l by lia. assert (E : (- 2 ^ s) mod W = Z.shiftl (2 ^ (64 - s) - 1) s).
    { rewrite Z.shiftl_mul_pow2 by lia. symmetry. apply Z.mod_unique with (-1); [left; nia|]. rewrite Wq. ring. }
    rewrite E, (Z.mod_small (unsigned_value l)) by nia. rewrite lor_add by lia. apply Z.mod_unique with (-1); [left; nia|]. rewrite Wq. ring.
  - replace (unsigned_value l - 2 ^ s) with (unsigned_value l + (- 2 ^ (s - 64)) * W); [rewrite Z_mod_plus_full; reflexivity|].
    unfold W. replace (2 ^ s) with (2 ^ (s - 64) * 2 ^ 64) by (rewrite <- Z.pow_add_r by lia; f_equal; lia). ring.
Qed.
Lemma signed_id v : - 2 ^ 63 <= v < 2 ^ 63 -> signed (v mod W) = v.
Proof.
  intros H. unfold signed. change (2 ^ 63) with 9223372036854775808 in *. change W with 18446744073709551616. destruct (Z.lt_ge_cases v 0) as [L|L].
  - assert (v mod 18446744073709551616 = v + 18446744073709551616) as -> by (symmetry; apply Z.mod_unique with (-1); lia). destruct (Z.ltb_spec (v + 18446744073709551616) 9223372036854775808); lia.
  - rewrite Z.mod_small by lia. destruct (Z.ltb_spec v 9223372036854775808); lia.
Qed.
(** * Encoders *)
Lemma encode_u_ok n : forall v, (1 <= n)%nat -> 0 <= v < 2 ^ (7 * Z.of_nat n) -> digits (encode_u n v) /\ unsigned_value (encode_u n v) = v /\ (length (encode_u n v) <= n)%nat.
Proof.
  induction n as [|n IH]; intros v Hn Hv; [lia|]. cbn [encode_u]. destruct (Z.ltb_spec v 128) as [L|L].
  - split; [constructor; lia|]. split; [reflexivity|cbn [length]; lia].
  - assert (N : (1 <= n)%nat) by (destruct n; [change (2 ^ (7 * Z.of_nat 1)) with 128 in Hv; lia|lia]).
    replace (7 * Z.of_nat (S n)) with (7 + 7 * Z.of_nat n) in Hv by lia. rewrite Z.pow_add_r in Hv by lia. change (2 ^ 7) with 128 in Hv.
    assert (D := Z.div_mod v 128 ltac:(lia)). assert (M := Z.mod_pos_bound v 128 ltac:(lia)). destruct (IH (v / 128) N) as [I1 [I2 I3]]; [split; [apply Z.div_pos; lia|apply Z.div_lt_upper_bound; lia]|].
    split; [constructor; [lia|exact I1]|]. rewrite unsigned_cons, I2 by (apply digits_ne, I1). cbn [length]. lia.
Qed.
Lemma encode_s_ok n : forall v, (1 <= n)%nat -> - 2 ^ (7 * Z.of_nat n - 1) <= v < 2 ^ (7 * Z.of_nat n - 1) -> digits (encode_s n v) /\ signed_value (encode_s n v) = v /\ (length (encode_s n v) <= n)%nat.
Proof.
  induction n as [|n IH]; intros v Hn Hv; [lia|]. cbn [encode_s]. cbv zeta. assert (D := Z.div_mod v 128 ltac:(lia)). assert (M := Z.mod_pos_bound v 128 ltac:(lia)).
  destruct (((v / 128 =? 0) && (v mod 128 <? 64)) || ((v / 128 =? -1) && (64 <=? v mod 128))) eqn:E.
  - split; [constructor; lia|]. split; [|cbn [length]; lia]. cbn [signed_value]. destruct (Z.ltb_spec (v mod 128) 64); lia.
  - assert (N : (1 <= n)%nat) by (destruct n; [change (2 ^ (7 * Z.of_nat 1 - 1)) with 64 in Hv; lia|lia]).
    replace (7 * Z.of_nat (S n) - 1) with (7 + (7 * Z.of_nat n - 1)) in Hv by lia. rewrite Z.pow_add_r in Hv by lia. change (2 ^ 7) with 128 in Hv.
    destruct (IH (v / 128) N) as [I1 [I2 I3]]; [split; [apply Z.div_le_lower_bound; lia|apply Z.div_lt_upper_bound; lia]|].
    split; [constructor; [lia|exact I1]|]. rewrite signed_cons, I2 by (apply digits_ne, I1). cbn [length]. lia.
Qed.
Lemma le_bytes n : forall v rest, 0 <= v < 2 ^ (8 * Z.of_nat n) -> le n (bytes n v ++ rest) = Ok (v, rest).
Proof.
  induction n as [|n IH]; intros v rest Hv; [cbn in Hv |- *; do 2 f_equal; lia|]. cbn [le bytes app]. replace (8 * Z.of_nat (S n)) with (8 + 8 * Z.of_nat n) in Hv by lia. rewrite Z.pow_add_r in Hv by lia. change (2 ^ 8) with 256 in Hv.
  rewrite IH by (split; [apply Z.div_pos; lia|apply Z.div_lt_upper_bound; lia]). cbn [bind]. assert (D := Z.div_mod v 256 ltac:(lia)). do 2 f_equal. lia.
Qed.
Lemma bytes_mod n : forall v, bytes n (v mod 2 ^ (8 * Z.of_nat n)) = bytes n v.
Proof.
  induction n as [|n IH]; intros v; [reflexivity|]. cbn [bytes]. replace (8 * Z.of_nat (S n)) with (8 + 8 * Z.of_nat n) by lia. rewrite Z.pow_add_r by lia. change (2 ^ 8) with 256.
  assert (P : 0 < 2 ^ (8 * Z.of_nat n)) by (apply Z.pow_pos_nonneg; lia). f_equal.
  - rewrite Z.rem_mul_r by lia. rewrite (Z.mul_comm 256), Z_mod_plus_full, Z.mod_mod by lia. reflexivity.
  - rewrite <- (IH (v / 256)). f_equal. rewrite Z.rem_mul_r by lia. rewrite (Z.mul_comm 256), Z.div_add by lia. rewrite Z.div_small by (apply Z.mod_pos_bound; lia). reflexivity.
Qed.
Lemma sle_bytes n v rest : (1 <= n <= 8)%nat -> - 2 ^ (8 * Z.of_nat n - 1) <= v < 2 ^ (8 * Z.of_nat n - 1) -> sle n (bytes n v ++ rest) = Ok (v mod W, rest).
Proof.
  intros Hn Hv. unfold sle. assert (P : 2 ^ (8 * Z.of_nat n) = 2 * 2 ^ (8 * Z.of_nat n - 1)) by (rewrite <- Z.pow_succ_r by lia; f_equal; lia). set (h := 2 ^ (8 * Z.of_nat n - 1)) in *.
  rewrite <- bytes_mod, le_bytes by (apply Z.mod_pos_bound; lia). cbn [bind]. cbv zeta. rewrite P. replace (2 * h / 2) with h by (rewrite Z.mul_comm, Z.div_mul; lia). do 3 f_equal.
  destruct (Z.lt_ge_cases v 0) as [L|L].
  - assert (v mod (2 * h) = v + 2 * h) as -> by (symmetry; apply Z.mod_unique with (-1); lia). destruct (Z.ltb_spec (v + 2 * h) h); lia.
  - rewrite Z.mod_small by lia. destruct (Z.ltb_spec v h); lia.
Qed.
