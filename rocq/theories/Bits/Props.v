(** C06, C61, C62: bit utilities, rounding, integer powers, fixed-point logarithm. *)
From Coq Require Import ZArith List Lia.
From Verif.Bits Require Import Model Spec Proofs.
Import ListNotations.
Open Scope Z_scope.

(** C06: bit counts and positions, for every width and every word. *)
Theorem C06_leading0s : forall w n, 0 < w -> word w n -> exists k, leading0s w n = Some k /\ 0 <= k <= w /\
  (forall i, w - k <= i < w -> Z.testbit n i = false) /\ (k < w -> Z.testbit n (w - 1 - k) = true).
Proof. exact leading0s_ok. Qed.
Print Assumptions C06_leading0s.
Theorem C06_trailing0s : forall w n, 0 < w -> word w n -> exists k, trailing0s w n = Some k /\ 0 <= k <= w /\
  (forall i, 0 <= i < k -> Z.testbit n i = false) /\ (k < w -> Z.testbit n k = true).
Proof. exact trailing0s_ok. Qed.
Print Assumptions C06_trailing0s.
Theorem C06_all1s : forall w n, 0 < w -> word w n -> all1s w n = Z.of_nat (count_bits true w n).
Proof. exact all1s_ok. Qed.
Print Assumptions C06_all1s.
Theorem C06_all0s : forall w n, 0 < w -> word w n -> all0s w n = Z.of_nat (count_bits false w n).
Proof. exact all0s_ok. Qed.
Print Assumptions C06_all0s.
Theorem C06_low1 : forall w n, 0 < w -> word w n -> lowest true w n (low1 w n).
Proof. exact low1_ok. Qed.
Print Assumptions C06_low1.
Theorem C06_low0 : forall w n, 0 < w -> word w n -> lowest false w n (low0 w n).
Proof. exact low0_ok. Qed.
Print Assumptions C06_low0.
Theorem C06_high1 : forall w n, 0 < w -> word w n -> exists k, high1 w n = Some k /\ highest true w n k.
Proof. exact high1_ok. Qed.
Print Assumptions C06_high1.
Theorem C06_high0 : forall w n, 0 < w -> word w n -> exists k, high0 w n = Some k /\ highest false w n k.
Proof. exact high0_ok. Qed.
Print Assumptions C06_high0.
Example C06_bits_example : word 8 0x2c /\ leading0s 8 0x2c = Some 2 /\ trailing0s 8 0x2c = Some 2 /\
  all1s 8 0x2c = 3 /\ all0s 8 0x2c = 5 /\ low1 8 0x2c = 3 /\ low0 8 0x2c = 1 /\ high1 8 0x2c = Some 6 /\ high0 8 0x2c = Some 8.
Proof. unfold word; vm_compute; repeat split; congruence. Qed.

(** Power-of-two test and rounding. *)
Theorem C06_is_pow2 : forall w n, 0 < w -> word w n -> is_pow2 w n = true <-> pow2 n.
Proof. exact is_pow2_ok. Qed.
Print Assumptions C06_is_pow2.
Theorem C06_floor2_unsigned : forall w n a, pow2 a -> word w n -> round_down n a (floor2u w n a).
Proof. exact floor2u_ok. Qed.
Print Assumptions C06_floor2_unsigned.
Theorem C06_ceiling2_unsigned : forall w n a, pow2 a -> word w a -> word w n ->
  (n <= 2 ^ w - a -> round_up n a (ceiling2u w n a)) /\ (2 ^ w - a < n -> ceiling2u w n a = 0).
Proof. exact ceiling2u_ok. Qed.
Print Assumptions C06_ceiling2_unsigned.
Theorem C06_floor2_signed : forall w n a, 0 < w -> pow2 a -> sword w a -> sword w n ->
  exists r, floor2s w n a = Some r /\ round_down n a r /\ sword w r.
Proof. exact floor2s_ok. Qed.
Print Assumptions C06_floor2_signed.
Theorem C06_ceiling2_signed : forall w n a, 0 < w -> pow2 a -> sword w a -> sword w n ->
  n <> - 2 ^ (w - 1) -> n <= 2 ^ (w - 1) - a -> exists r, ceiling2s w n a = Some r /\ round_up n a r.
Proof. exact ceiling2s_ok. Qed.
Print Assumptions C06_ceiling2_signed.
Theorem C06_libPow2 : forall n, word 64 n -> libPow2 n = true <-> (n = 0 \/ pow2 n).
Proof. exact libPow2_ok. Qed.
Print Assumptions C06_libPow2.
Theorem C06_libFloor : forall n a, word 64 n -> word 64 a -> pow2 a -> exists r, libFloor n a = Some r /\ round_down n a r.
Proof. exact libFloor_ok. Qed.
Print Assumptions C06_libFloor.
Theorem C06_libCeiling : forall n a, word 64 n -> word 64 a -> pow2 a -> exists r, libCeiling n a = Some r /\
  (n <= 2 ^ 64 - a -> round_up n a r) /\ (2 ^ 64 - a < n -> r = 0).
Proof. exact libCeiling_ok. Qed.
Print Assumptions C06_libCeiling.
Theorem C06_lib_abort : forall n a, word 64 a -> a <> 0 -> ~ pow2 a -> libFloor n a = None /\ libCeiling n a = None.
Proof. exact libFloor_abort. Qed.
Print Assumptions C06_lib_abort.
Example C06_round_example : pow2 16 /\ word 64 1000 /\ floor2u 64 1000 16 = 992 /\ ceiling2u 64 1000 16 = 1008 /\
  floor2s 32 (-1000) 16 = Some (-1008) /\ ceiling2s 32 (-1000) 16 = Some (-992).
Proof. split; [exists 4; split; [lia|reflexivity]|]. unfold word. vm_compute. repeat split; congruence. Qed.

(** General (not power of two) rounding.  Full statement for floor: every n and positive align are rounded down. *)
Theorem C06_floor_unsigned : forall n a, 0 < a -> exists r, flooru n a = Some r /\ round_down n a r.
Proof. exact flooru_ok. Qed.
Print Assumptions C06_floor_unsigned.
Theorem C06_ceiling_unsigned : forall w n a, 0 < a -> word w n -> n <= 2 ^ w - a ->
  exists r, ceilingu w n a = Some r /\ round_up n a r.
Proof. exact ceilingu_ok. Qed.
Print Assumptions C06_ceiling_unsigned.
Theorem C06_ceiling_signed : forall w n a, 0 < w -> 0 < a -> sword w a -> sword w n -> n <= 2 ^ (w - 1) - a ->
  exists r, ceilings w n a = Some r /\ round_up n a r.
Proof. exact ceilings_ok. Qed.
Print Assumptions C06_ceiling_signed.
Theorem C06_floor_signed_partial : forall w n a, 0 < w -> 0 < a -> sword w a -> sword w n -> 0 <= n ->
  exists r, floors w n a = Some r /\ round_down n a r.
Proof. exact floors_nonneg. Qed.
Print Assumptions C06_floor_signed_partial.
Theorem C06_floor_signed_rounds_up_when_negative : forall w n a, 0 < w -> 0 < a -> sword w a -> sword w n -> n < 0 ->
  exists r, floors w n a = Some r /\ round_up n a r.
Proof. exact floors_neg. Qed.
Print Assumptions C06_floor_signed_rounds_up_when_negative.
Theorem C06_floor_signed_refuted : exists n a r, sword 32 n /\ 0 < a /\ floors 32 n a = Some r /\ ~ round_down n a r.
Proof.
  exists (-5), 4, (-4). split; [unfold sword; cbn; lia|]. split; [lia|]. split; [reflexivity|]. intros [_ H]. lia.
Qed.
Print Assumptions C06_floor_signed_refuted.
Theorem C06_ceiling_div_unsigned_partial : forall w n a, 0 < a -> word w a -> word w n -> n + (a - 1) < 2 ^ w ->
  exists r, ceiling_divu w n a = Some r /\ (r - 1) * a < n <= r * a.
Proof. exact ceiling_divu_ok. Qed.
Print Assumptions C06_ceiling_div_unsigned_partial.
Theorem C06_ceiling_div_signed_partial : forall w n a, 0 < w -> 0 < a -> sword w a -> 0 <= n -> sword w (n + (a - 1)) ->
  exists r, ceiling_divs w n a = Some r /\ (r - 1) * a < n <= r * a.
Proof. exact ceiling_divs_ok. Qed.
Print Assumptions C06_ceiling_div_signed_partial.
(** Outside: wrap-around for large unsigned n, truncation for negative n. *)
Theorem C06_ceiling_div_refuted :
  (exists n a r, word 32 n /\ word 32 a /\ 0 < a /\ ceiling_divu 32 n a = Some r /\ ~ ((r - 1) * a < n <= r * a)) /\
  (exists n a r, sword 32 n /\ sword 32 a /\ 0 < a /\ ceiling_divs 32 n a = Some r /\ ~ ((r - 1) * a < n <= r * a)).
Proof.
  split.
  - exists 4294967295, 4, 0. unfold word. split; [cbn; lia|]. split; [cbn; lia|]. split; [lia|]. split; [reflexivity|lia].
  - exists (-5), 4, 0. unfold sword. split; [cbn; lia|]. split; [cbn; lia|]. split; [lia|]. split; [reflexivity|lia].
Qed.
Print Assumptions C06_ceiling_div_refuted.
Theorem C06_log2 : forall w n, 0 < w -> word w n -> exists k, ilog2 w n = Some k /\
  (n = 0 -> k = -1) /\ (n <> 0 -> 0 <= k < w /\ 2 ^ k <= n < 2 ^ (k + 1)).
Proof. exact ilog2_ok. Qed.
Print Assumptions C06_log2.
Example C06_general_example : flooru 17 5 = Some 15 /\ ceilings 32 17 5 = Some 20 /\ ceilings 32 (-17) 5 = Some (-15) /\
  ceiling_divu 64 17 5 = Some 4 /\ ilog2 32 1000 = Some 9.
Proof. repeat split. Qed.

(** C61: integer powers.  A power representable in the type is computed exactly, without overflow on the way. *)
Theorem C61_power_unsigned : forall w x y, 0 < w -> 0 <= y -> word w x -> word w (x ^ y) ->
  expu w x y = Some (Some (x ^ y)).
Proof. exact expu_ok. Qed.
Print Assumptions C61_power_unsigned.
(** Full statement for signed x: the same without the last hypothesis. *)
Theorem C61_power_signed_partial : forall w x y, 0 < w -> 0 <= y -> sword w x -> sword w (x ^ y) ->
  ~ (x = -1 /\ w <= y) -> exps w x y = Some (Some (x ^ y)).
Proof. exact exps_ok. Qed.
Print Assumptions C61_power_signed_partial.
Theorem C61_power_signed_refuted : forall y, 32 <= y -> exps 32 (-1) y = Some (Some 0) /\ (-1) ^ y <> 0.
Proof.
  intros y Hy. split; [|apply Z.pow_nonzero; lia]. unfold exps.
  destruct (Z.eqb_spec y 0); [lia|]. cbn. destruct (Z.leb_spec 32 y); [reflexivity|lia].
Qed.
Print Assumptions C61_power_signed_refuted.
(** Polymorphic: for any associative multiplication with unit, x \ y is the product of y copies of x. *)
Theorem C61_power_polymorphic : forall (T : Type) (mul : T -> T -> T) (one : T),
  (forall a b c, mul a (mul b c) = mul (mul a b) c) -> (forall a, mul one a = a) -> (forall a, mul a one = a) ->
  forall x y, 0 <= y ->
  exp_poly (fun u v => Some (mul u v)) one x y = Some (Some (Nat.iter (Z.to_nat y) (mul x) one)).
Proof.
  intros T mul one A L R x y Hy. rewrite (exp_poly_ok mul one A L R x y Hy). do 2 f_equal.
  induction (Z.to_nat y) as [|n IH]; [reflexivity|]. cbn. rewrite IH. reflexivity.
Qed.
Print Assumptions C61_power_polymorphic.
Example C61_example : sword 32 ((-2) ^ 31) /\ exps 32 (-2) 31 = Some (Some (-2147483648)) /\
  expu 64 3 40 = Some (Some 12157665459056928801) /\ exps 32 7 13 = Some None.
Proof. split; [unfold sword; cbn; lia|]. vm_compute. auto. Qed.

(** C62: the fixed-point base-2 logarithm: defined, and integer part exact, for every val >= 2.
    Missing from the full property: an error bound on the 32 fraction bits. *)
Theorem C62_log2_integer_part_partial : forall val, word 64 val -> 1 < val -> val < 2 ^ 64 ->
  exists r, log2_u32_32 val = Some r /\ r / 2 ^ 32 = Z.log2 val /\ 0 <= r < 2 ^ 64.
Proof. exact log2_u32_32_ok. Qed.
Print Assumptions C62_log2_integer_part_partial.
(** log2(1) = 0 shifts a 64-bit word by 64: undefined behaviour. *)
Theorem C62_log2_of_one_refuted : word 64 1 /\ log2_u32_32 1 = None.
Proof. split; [unfold word; cbn; lia|reflexivity]. Qed.
Print Assumptions C62_log2_of_one_refuted.
Example C62_example : log2_u32_32 8 = Some (3 * 2 ^ 32) /\ log2_u32_32 3 = Some 6807362105.
Proof. vm_compute. auto. Qed.
