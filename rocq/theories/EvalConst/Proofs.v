From Coq Require Import ZArith List Bool Lia ZifyBool.
From Verif.EvalConst Require Import Model Spec.
Open Scope Z_scope.
Lemma half_val : half = 9223372036854775808.
Proof. reflexivity. Qed.
Lemma bits_id : forall z, - half <= z < half -> bits z = z.
Proof. intros z H. unfold bits. rewrite Z.mod_small; lia. Qed.
Lemma pow_le : forall w, w <= 64 -> 2 ^ (w - 1) <= half.
Proof. intros w H. unfold half. apply Z.pow_le_mono_r; lia. Qed.
Lemma lo_half : forall t, c_type t -> - half <= lo t.
Proof.
  intros [|[] w] H; cbn [lo c_type] in *; try (rewrite half_val; lia). pose proof (pow_le w). lia.
Qed.
Lemma lo_hi : forall t, c_type t -> lo t <= 0 /\ 0 <= hi t.
Proof.
  intros [|[] w] H; cbn [lo hi c_type] in *; try lia; pose proof (Z.pow_pos_nonneg 2 (w - 1)); pose proof (Z.pow_pos_nonneg 2 w); lia.
Qed.
Lemma size : forall sg w, 1 <= w -> hi (Int sg w) - lo (Int sg w) + 1 = 2 ^ w.
Proof. intros [] w H; cbn [lo hi]; [|lia]. replace w with (1 + (w - 1)) at 3 by lia. rewrite Z.pow_add_r by lia. change (2 ^ 1) with 2. lia. Qed.
Lemma conv_id : forall t z, c_type t -> fits t z -> conv t z = z.
Proof.
  intros [|sg w] z C F; unfold fits in F.
  - cbn [lo hi conv] in *. destruct (z =? 0) eqn:E; lia.
  - unfold conv. pose proof (size sg w). cbn [c_type] in C. rewrite Z.mod_small; lia.
Qed.
Lemma fitsb_iff : forall t z, fitsb t z = true <-> fits t z.
Proof. intros t z. unfold fitsb, fits. lia. Qed.
Lemma arith_id : forall t z, c_type t -> fits t z -> arith t z = Some z.
Proof.
  intros t z C F. destruct t as [|[] w]; cbn [arith]; try (rewrite (proj2 (fitsb_iff _ z) F); auto). rewrite conv_id; auto.
Qed.
Lemma chk_fits : forall t z v, c_type t -> fits t z -> arith t z = Some v -> v < half -> chk z = Done v true true.
Proof.
  intros t z v C F A V. rewrite (arith_id t z C F) in A. injection A as <-. unfold chk, fits in *. pose proof (lo_half t C). replace ((- half <=? z) && (z <? half)) with true by lia. auto.
Qed.
Lemma quot_fits : forall t x y, c_type t -> Z.quot x y = 0 -> fits t (Z.quot x y).
Proof. intros t x y C E. rewrite E. unfold fits. pose proof (lo_hi t C). lia. Qed.
(** long long calculation agrees with C *)
Lemma un_sound : forall t o x v w k g, c_type t -> no_wrap_un t o x -> cun t o x = Some v -> v < half -> un o x = Done w k g -> k = true -> w = v.
Proof.
  intros t o x v w k g C N A V U K. destruct o; cbn [cun un no_wrap_un] in *; try discriminate.
  - congruence.
  - rewrite (chk_fits t _ v C N A V) in U. congruence.
  - rewrite (arith_id t _ C N) in A. injection A as <-. injection U as <- _ _. unfold Z.lnot. lia.
  - unfold bool_ in A. injection A as <-. injection U as <- _ _. unfold b2z, nz. rewrite negb_involutive. destruct (x =? 0); auto.
Qed.
Lemma width64 : forall t, c_type t -> width t <= 64.
Proof. intros [|sg w] H; cbn [width c_type] in *; lia. Qed.
Lemma bin_sound : forall t o x y v w k g, c_type t -> no_wrap_bin t o x y -> cbin t o x y = Some v -> v < half -> bin o x y = Done w k g -> k = true -> w = v.
Proof.
  intros t o x y v w k g C N A V U K. destruct o; cbn [cbin bin no_wrap_bin] in *; try discriminate; unfold bool_, b2z in *.
  - rewrite (chk_fits t _ v C N A V) in U. congruence.
  - rewrite (chk_fits t _ v C N A V) in U. congruence.
  - rewrite (chk_fits t _ v C N A V) in U. congruence.
  - unfold nz in U. destruct (y =? 0); [discriminate|]. cbn [negb] in U. rewrite (chk_fits t _ v C N A V) in U. congruence.
  - unfold nz in U. destruct (y =? 0); [discriminate|]. cbn [negb] in U. destruct (fitsb t (Z.quot x y)); [|discriminate]. destruct ((x =? - half) && (y =? -1)); [discriminate|]. congruence.
  - pose proof (width64 t C). destruct ((0 <=? y) && (y <? width t)) eqn:E; [|discriminate]. destruct (x <? 0) eqn:X; [discriminate|]. replace ((0 <=? y) && (y <? 64)) with true in U by lia. rewrite (arith_id t _ C N) in A. injection A as <-. injection U as <- _ _. rewrite bits_id; auto. split; auto.
    assert (0 < 2 ^ y) by (apply Z.pow_pos_nonneg; lia). assert (0 <= x * 2 ^ y) by (apply Z.mul_nonneg_nonneg; lia). rewrite half_val. lia.
  - pose proof (width64 t C). destruct ((0 <=? y) && (y <? width t)) eqn:E; [|discriminate]. replace ((0 <=? y) && (y <? 64)) with true in U by lia. injection A as <-. injection U as <- _ _. apply Z.shiftr_div_pow2. lia.
  - congruence.
  - rewrite Z.gtb_ltb in A. congruence.
  - congruence.
  - rewrite Z.geb_leb in A. congruence.
  - congruence.
  - congruence.
  - congruence.
  - congruence.
  - congruence.
Qed.
Lemma known_gcc : forall o x y v k g, bin o x y = Done v k g -> k = true -> g = true.
Proof.
  intros o x y v k g H K. destruct o; cbn [bin] in H; unfold chk in H; repeat match type of H with context [if ?b then _ else _] => destruct b end; congruence.
Qed.
Lemma known_gcc_un : forall o x v k g, un o x = Done v k g -> k = true -> g = true.
Proof.
  intros o x v k g H K. destruct o; cbn [un] in H; unfold chk in H; repeat match type of H with context [if ?b then _ else _] => destruct b end; congruence.
Qed.
