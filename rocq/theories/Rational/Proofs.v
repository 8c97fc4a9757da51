From Coq Require Import ZArith QArith List Lia Znumtheory Qfield Qpower Qabs.
From Verif.Rational Require Import Model Spec.
Import ListNotations.
Open Scope Z_scope.

Lemma gcd_loop_ok : forall n a b, 0 <= a -> 0 < b -> b < 2 ^ Z.of_nat n ->
  forall k, gcd_loop (2 * n + 1 + k) a b = Ok (Z.gcd a b).
Proof.
  induction n as [|n IH]; intros a b Ha Hb Hlt k.
  - simpl in Hlt. lia.
  - replace (2 * S n + 1 + k)%nat with (S (S (2 * n + 1 + k))) by lia.
    cbn [gcd_loop].
    assert (Hr := Z.rem_bound_pos a b Ha Hb).
    assert (Hg1 : Z.gcd a b = Z.gcd b (Z.rem a b)).
    { rewrite (Z.rem_mod_nonneg a b) by lia. rewrite Z.gcd_comm. rewrite (Z.gcd_comm b (a mod b)).
      rewrite Z.gcd_mod by lia. apply Z.gcd_comm || reflexivity. }
    destruct (Z.eqb_spec (Z.rem a b) 0) as [E|E].
    + rewrite Hg1, E, Z.gcd_0_r. f_equal. lia.
    + assert (Hr2 := Z.rem_bound_pos b (Z.rem a b) ltac:(lia) ltac:(lia)).
      assert (Hg2 : Z.gcd b (Z.rem a b) = Z.gcd (Z.rem a b) (Z.rem b (Z.rem a b))).
      { rewrite (Z.rem_mod_nonneg b (Z.rem a b)) by lia.
        rewrite (Z.gcd_comm (Z.rem a b) (b mod _)). rewrite Z.gcd_mod by lia. apply Z.gcd_comm. }
      destruct (Z.eqb_spec (Z.rem b (Z.rem a b)) 0) as [E2|E2].
      * rewrite Hg1, Hg2, E2, Z.gcd_0_r. f_equal. lia.
      * rewrite Hg1, Hg2. apply IH; try lia.
        assert (Hq := Z.quot_rem' b (Z.rem a b)).
        assert (1 <= Z.quot b (Z.rem a b)).
        { apply Z.quot_le_lower_bound; lia. }
        assert (Z.rem b (Z.rem a b) + Z.rem a b <= b) by nia.
        rewrite Nat2Z.inj_succ, Z.pow_succ_r in Hlt by lia. lia.
Qed.

Lemma gcd_ok a b : 0 <= a -> 0 < b -> gcd a b = Ok (Z.gcd a b).
Proof.
  intros Ha Hb. unfold gcd, gcd_fuel.
  rewrite <- (Nat.add_0_r (2 * _ + 1)).
  apply gcd_loop_ok; auto.
  rewrite Z.abs_eq by lia.
  destruct (Z.log2_spec b Hb) as [_ H].
  assert (0 <= Z.log2 b) by apply Z.log2_nonneg.
  rewrite Nat2Z.inj_add, Z2Nat.id by lia. exact H.
Qed.

Lemma gcd_sign n d : Z.gcd (Z.abs n) d = Z.gcd n d.
Proof. apply Z.gcd_abs_l. Qed.

(** What the constructor returns. *)
Lemma mk_spec n d : d <> 0 ->
  mk n d = Ok (R (Z.sgn d * n / Z.gcd n d) (Z.abs d / Z.gcd n d)).
Proof.
  intros Hd. unfold mk, simplify.
  destruct (Z.eqb_spec d 0); [lia|].
  assert (Hg : 0 < Z.gcd n d).
  { assert (H := Z.gcd_nonneg n d). assert (Z.gcd n d <> 0); [|lia].
    intros E. apply Z.gcd_eq_0_r in E. lia. }
  assert (Hn := Z.gcd_divide_l n d). assert (Hd' := Z.gcd_divide_r n d).
  destruct (Z.ltb_spec d 0).
  - rewrite gcd_ok by lia. cbn [bind].
    rewrite gcd_sign, Z.gcd_opp_l, Z.gcd_opp_r.
    rewrite !(Z.sgn_neg d), (Z.abs_neq d) by lia.
    f_equal. f_equal.
    + replace (-1 * n) with (- n) by lia.
      apply Z.quot_div_exact; [lia|]. now apply Z.divide_opp_r.
    + apply Z.quot_div_exact; [lia|]. now apply Z.divide_opp_r.
  - rewrite gcd_ok by lia. cbn [bind]. rewrite gcd_sign.
    rewrite !(Z.sgn_pos d), (Z.abs_eq d) by lia.
    f_equal. f_equal.
    + replace (1 * n) with n by lia. apply Z.quot_div_exact; [lia|auto].
    + apply Z.quot_div_exact; [lia|auto].
Qed.

Lemma mk_zero_den n : mk n 0 = Abort.
Proof. reflexivity. Qed.

Lemma mk_canonical n d r : mk n d = Ok r -> canonical r.
Proof.
  intros H. destruct (Z.eq_dec d 0) as [->|Hd]; [discriminate|].
  rewrite mk_spec in H by auto. injection H as <-. unfold canonical; cbn [num den].
  assert (Hg : 0 < Z.gcd n d).
  { assert (H := Z.gcd_nonneg n d). assert (Z.gcd n d <> 0); [|lia].
    intros E. apply Z.gcd_eq_0_r in E. lia. }
  destruct (Z.gcd_divide_l n d) as [n' Hn']. destruct (Z.gcd_divide_r n d) as [d' Hd'].
  set (g := Z.gcd n d) in *.
  assert (Hnd : Z.sgn d * n / g = Z.sgn d * n').
  { rewrite Hn' at 1. rewrite Z.mul_assoc. apply Z.div_mul. lia. }
  assert (Hdd : Z.abs d / g = Z.abs d').
  { rewrite Hd' at 1. rewrite Z.abs_mul, (Z.abs_eq g) by lia. apply Z.div_mul. lia. }
  rewrite Hnd, Hdd. split.
  - assert (d' <> 0) by (intros ->; lia). lia.
  - rewrite Z.gcd_abs_r.
    assert (Hc : Z.gcd n' d' = 1).
    { assert (E : g = Z.gcd n' d' * g).
      { unfold g at 1. rewrite Hn', Hd'. rewrite Z.gcd_mul_mono_r, (Z.abs_eq g) by lia. reflexivity. }
      assert (Z.gcd n' d' * g = 1 * g) by lia.
      eapply Z.mul_reg_r in H; lia. }
    destruct (Z.lt_total d 0) as [Hs|[Hs|Hs]]; try lia.
    + rewrite Z.sgn_neg by lia. replace (-1 * n') with (- n') by lia. now rewrite Z.gcd_opp_l.
    + rewrite Z.sgn_pos by lia. now rewrite Z.mul_1_l.
Qed.

Lemma mk_total n d : d <> 0 -> exists r, mk n d = Ok r.
Proof. intros. rewrite mk_spec by auto. eauto. Qed.

Lemma mk_cross n d r : mk n d = Ok r -> d <> 0 /\ num r * d = n * den r /\ 0 < den r.
Proof.
  intros H. assert (Hc := mk_canonical _ _ _ H).
  destruct (Z.eq_dec d 0) as [->|Hd]; [discriminate|].
  rewrite mk_spec in H by auto. injection H as <-. cbn [num den] in *.
  split; [auto|]. split; [|exact (proj1 Hc)].
  assert (Hg : 0 < Z.gcd n d).
  { assert (H := Z.gcd_nonneg n d). assert (Z.gcd n d <> 0); [|lia].
    intros E. apply Z.gcd_eq_0_r in E. lia. }
  destruct (Z.gcd_divide_l n d) as [n' Hn']. destruct (Z.gcd_divide_r n d) as [d' Hd'].
  set (g := Z.gcd n d) in *.
  assert (Hnd : Z.sgn d * n / g = Z.sgn d * n').
  { rewrite Hn' at 1. rewrite Z.mul_assoc. apply Z.div_mul. lia. }
  assert (Hdd : Z.abs d / g = Z.abs d').
  { rewrite Hd' at 1. rewrite Z.abs_mul, (Z.abs_eq g) by lia. apply Z.div_mul. lia. }
  rewrite Hnd, Hdd.
  assert (Hs : Z.abs d' = Z.sgn d * d').
  { rewrite Hd'. rewrite Z.sgn_mul, (Z.sgn_pos g) by lia. lia. }
  rewrite Hs. assert (E : n' * d = n * d') by (rewrite Hn', Hd' at 1; ring).
  transitivity (Z.sgn d * (n' * d)); [ring|]. rewrite E. ring.
Qed.

Lemma value_mk n d r : mk n d = Ok r -> (value r == inject_Z n / inject_Z d)%Q.
Proof.
  intros H. destruct (mk_cross _ _ _ H) as (Hd & Hx & Hp).
  unfold value. rewrite Qmake_Qdiv. rewrite Z2Pos.id by auto.
  assert (Hd' : ~ (inject_Z d == 0)%Q) by (intros E; unfold Qeq in E; simpl in E; lia).
  assert (Hp' : ~ (inject_Z (den r) == 0)%Q) by (intros E; unfold Qeq in E; simpl in E; lia).
  assert (E : (inject_Z (num r) * inject_Z d == inject_Z n * inject_Z (den r))%Q).
  { rewrite <- !inject_Z_mult. rewrite Hx. reflexivity. }
  apply (Qmult_inj_r _ _ (inject_Z d * inject_Z (den r))).
  - intros E0. apply Qmult_integral in E0. tauto.
  - transitivity (inject_Z (num r) * inject_Z d)%Q; [field; auto|].
    rewrite E. field; auto.
Qed.

Lemma value_eq r : 0 < den r -> (value r == inject_Z (num r) / inject_Z (den r))%Q.
Proof. intros. unfold value. rewrite Qmake_Qdiv. rewrite Z2Pos.id by auto. reflexivity. Qed.

Lemma injz_nz z : z <> 0 -> ~ (inject_Z z == 0)%Q.
Proof. intros H E. unfold Qeq in E. simpl in E. lia. Qed.

Lemma exp_loop_ok y : forall op w, exp_loop y op w = op * w ^ Zpos y.
Proof.
  induction y as [y IH|y IH|]; intros op w; cbn [exp_loop].
  - rewrite IH. rewrite Pos2Z.inj_xI. rewrite Z.pow_add_r, Z.pow_mul_r by lia.
    replace (w ^ 2) with (w * w) by lia. lia.
  - rewrite IH. rewrite Pos2Z.inj_xO. rewrite Z.pow_mul_r by lia.
    replace (w ^ 2) with (w * w) by lia. reflexivity.
  - lia.
Qed.

Lemma exp_poly_ok x y : 0 <= y -> exp_poly x y = x ^ y.
Proof.
  intros Hy. destruct y as [|p|p]; try lia; cbn [exp_poly]; [reflexivity|].
  rewrite exp_loop_ok. lia.
Qed.

Lemma eval_canonical env : Forall canonical env -> forall e r, eval env e = Ok r -> canonical r.
Proof.
  intros Henv. induction e; cbn [eval]; intros r H;
    try (eapply mk_canonical; eassumption).
  - destruct (nth_error env i) eqn:E; [|discriminate]. injection H as <-.
    rewrite Forall_forall in Henv. apply Henv. eapply nth_error_In; eauto.
  - destruct (eval env e) eqn:E; try discriminate. eapply mk_canonical; exact H.
  - destruct (eval env e) eqn:E; try discriminate. eapply mk_canonical; exact H.
  - destruct (eval env e) as [a| |] eqn:E; try discriminate. change (rabs a = Ok r) in H. unfold rabs in H.
    change mk_zero with (@Ok rational (R 0 1)) in H. cbn [bind] in H. destruct (rlt a _).
    + eapply mk_canonical; exact H.
    + injection H as <-. eapply IHe; reflexivity.
  - destruct (eval env e1) eqn:E1; try discriminate. destruct (eval env e2) eqn:E2; try discriminate.
    cbn [bind] in H. unfold radd in H. destruct (_ =? _); eapply mk_canonical; eassumption.
  - destruct (eval env e1) eqn:E1; try discriminate. destruct (eval env e2) eqn:E2; try discriminate.
    cbn [bind] in H. unfold rsub in H. destruct (_ =? _); eapply mk_canonical; eassumption.
  - destruct (eval env e1) eqn:E1; try discriminate. destruct (eval env e2) eqn:E2; try discriminate.
    eapply mk_canonical; exact H.
  - destruct (eval env e1) eqn:E1; try discriminate. destruct (eval env e2) eqn:E2; try discriminate.
    eapply mk_canonical; exact H.
  - destruct (eval env e) eqn:E; try discriminate. cbn [bind] in H. unfold rpow in H.
    destruct (_ <? _); eapply mk_canonical; eassumption.
Qed.

Lemma run_canonical : forall p env env', Forall canonical env -> run env p = Ok env' -> Forall canonical env'.
Proof.
  induction p as [|e p IH]; cbn [run]; intros env env' Henv H.
  - injection H as <-. auto.
  - destruct (eval env e) eqn:E; try discriminate. cbn [bind] in H. eapply IH; [|exact H].
    apply Forall_app; split; auto. constructor; auto. eapply eval_canonical; eauto.
Qed.

(** Running never exhausts the fuel of the gcd loop. *)
Lemma mk_nofuel n d : mk n d <> NoFuel.
Proof.
  destruct (Z.eq_dec d 0) as [->|Hd]; [discriminate|]. rewrite mk_spec by auto. discriminate.
Qed.

Lemma eval_nofuel env e : eval env e <> NoFuel.
Proof.
  induction e; cbn [eval]; try apply mk_nofuel; try discriminate.
  - destruct (nth_error env i); discriminate.
  - destruct (eval env e); cbn; try congruence. apply mk_nofuel.
  - destruct (eval env e); cbn; try congruence. apply mk_nofuel.
  - destruct (eval env e) as [a| |]; [change (rabs a <> NoFuel)|discriminate|congruence]. unfold rabs.
    change mk_zero with (@Ok rational (R 0 1)). cbn [bind]. destruct (rlt a _); [apply mk_nofuel|discriminate].
  - destruct (eval env e1), (eval env e2); cbn; try congruence. unfold radd. destruct (_ =? _); apply mk_nofuel.
  - destruct (eval env e1), (eval env e2); cbn; try congruence. unfold rsub. destruct (_ =? _); apply mk_nofuel.
  - destruct (eval env e1), (eval env e2); cbn; try congruence. apply mk_nofuel.
  - destruct (eval env e1), (eval env e2); cbn; try congruence. apply mk_nofuel.
  - destruct (eval env e); cbn; try congruence. unfold rpow. destruct (_ <? _); apply mk_nofuel.
Qed.

Lemma run_nofuel : forall p env, run env p <> NoFuel.
Proof.
  induction p as [|e p IH]; cbn [run]; intros env; [discriminate|].
  assert (H := eval_nofuel env e). destruct (eval env e); cbn; [apply IH|discriminate|congruence].
Qed.

(** Abort exactly on zero denominators. *)
Lemma mk_abort n d : mk n d = Abort <-> d = 0.
Proof.
  split; [|intros ->; reflexivity]. intros H. destruct (Z.eq_dec d 0) as [E|E]; auto.
  rewrite mk_spec in H by auto. discriminate.
Qed.

Lemma rdiv_abort l r : canonical l -> canonical r -> (rdiv l r = Abort <-> num r = 0).
Proof.
  intros [Hl _] [Hr _]. unfold rdiv. rewrite mk_abort.
  destruct (Z.ltb_spec (num r) 0); cbn [num den]; nia.
Qed.

Lemma rpow_abort x y : canonical x -> (rpow x y = Abort <-> y < 0 /\ num x = 0).
Proof.
  intros [Hx _]. unfold rpow. destruct (Z.ltb_spec y 0) as [Hy|Hy]; rewrite mk_abort.
  - rewrite exp_poly_ok by lia. split.
    + intros H. split; auto. destruct (Z.eq_dec (num x) 0); auto.
      exfalso. revert H. apply Z.pow_nonzero; lia.
    + intros [_ ->]. apply Z.pow_0_l. lia.
  - rewrite exp_poly_ok by lia. split; [|lia]. intros H. exfalso. revert H. apply Z.pow_nonzero; lia.
Qed.

Lemma radd_total l r : canonical l -> canonical r ->
  exists s, radd l r = Ok s /\ (value s == value l + value r)%Q.
Proof.
  intros [Hl _] [Hr _]. unfold radd. destruct (Z.eqb_spec (den l) (den r)) as [E|E].
  - destruct (mk_total (num l + num r) (den l) ltac:(lia)) as [s Hs]. exists s; split; auto.
    rewrite (value_mk _ _ _ Hs), !value_eq by lia. rewrite <- E, inject_Z_plus.
    field. apply injz_nz; lia.
  - destruct (mk_total (num l * den r + den l * num r) (den l * den r) ltac:(nia)) as [s Hs]. exists s; split; auto.
    rewrite (value_mk _ _ _ Hs), !value_eq by lia. rewrite inject_Z_plus, !inject_Z_mult.
    field. split; apply injz_nz; lia.
Qed.

Lemma rsub_total l r : canonical l -> canonical r ->
  exists s, rsub l r = Ok s /\ (value s == value l - value r)%Q.
Proof.
  intros [Hl _] [Hr _]. unfold rsub. destruct (Z.eqb_spec (den l) (den r)) as [E|E].
  - destruct (mk_total (num l - num r) (den l) ltac:(lia)) as [s Hs]. exists s; split; auto.
    rewrite (value_mk _ _ _ Hs), !value_eq by lia. rewrite <- E. unfold Z.sub. rewrite inject_Z_plus, inject_Z_opp.
    field. apply injz_nz; lia.
  - destruct (mk_total (num l * den r - den l * num r) (den l * den r) ltac:(nia)) as [s Hs]. exists s; split; auto.
    rewrite (value_mk _ _ _ Hs), !value_eq by lia. unfold Z.sub. rewrite inject_Z_plus, inject_Z_opp, !inject_Z_mult.
    field. split; apply injz_nz; lia.
Qed.

Lemma rmul_total l r : canonical l -> canonical r ->
  exists s, rmul l r = Ok s /\ (value s == value l * value r)%Q.
Proof.
  intros [Hl _] [Hr _]. unfold rmul.
  destruct (mk_total (num l * num r) (den l * den r) ltac:(nia)) as [s Hs]. exists s; split; auto.
  rewrite (value_mk _ _ _ Hs), !value_eq by lia. rewrite !inject_Z_mult.
  field. split; apply injz_nz; lia.
Qed.

Lemma rdiv_total l r : canonical l -> canonical r -> num r <> 0 ->
  exists s, rdiv l r = Ok s /\ (value s == value l / value r)%Q.
Proof.
  intros [Hl _] [Hr _] Hn. unfold rdiv.
  destruct (Z.ltb_spec (num r) 0) as [Hs|Hs]; cbn [num den].
  - destruct (mk_total (num l * - den r) (den l * - num r) ltac:(nia)) as [s E]. exists s; split; auto.
    rewrite (value_mk _ _ _ E), !value_eq by lia. rewrite !inject_Z_mult, !inject_Z_opp.
    field. repeat split; apply injz_nz; lia.
  - destruct (mk_total (num l * den r) (den l * num r) ltac:(nia)) as [s E]. exists s; split; auto.
    rewrite (value_mk _ _ _ E), !value_eq by lia. rewrite !inject_Z_mult.
    field. repeat split; apply injz_nz; lia.
Qed.

Lemma rneg_total r : canonical r -> exists s, rneg r = Ok s /\ (value s == - value r)%Q.
Proof.
  intros [Hr _]. unfold rneg.
  destruct (mk_total (- num r) (den r) ltac:(lia)) as [s E]. exists s; split; auto.
  rewrite (value_mk _ _ _ E), !value_eq by lia. rewrite inject_Z_opp. field. apply injz_nz; lia.
Qed.

Lemma canonical_unique l r : canonical l -> canonical r -> num l * den r = den l * num r -> l = r.
Proof.
  intros [Hl Gl] [Hr Gr] E. destruct l as [n d], r as [n' d']; cbn [num den] in *.
  assert (Hd : (d | d')).
  { apply (Z.gauss d n d'); [|rewrite Z.gcd_comm; exact Gl]. exists n'. lia. }
  assert (Hd' : (d' | d)).
  { apply (Z.gauss d' n' d); [|rewrite Z.gcd_comm; exact Gr]. exists n. lia. }
  assert (d = d') by (apply Z.divide_antisym_nonneg; auto; lia).
  subst d'. f_equal. nia.
Qed.

Lemma rpos_id r : canonical r -> rpos r = Ok r.
Proof.
  intros Hc. assert (Hc' := Hc). destruct Hc' as [Hr _]. unfold rpos.
  destruct (mk_total (num r) (den r) ltac:(lia)) as [s E]. rewrite E. f_equal.
  apply canonical_unique; auto. { eapply mk_canonical; eauto. }
  destruct (mk_cross _ _ _ E) as (_ & H & _). lia.
Qed.

Lemma Qpower_nonneg_inject z d n : 0 <= n -> d <> 0 ->
  ((inject_Z z / inject_Z d) ^ n == inject_Z (z ^ n) / inject_Z (d ^ n))%Q.
Proof.
  intros Hn Hd. unfold Qdiv. rewrite Qmult_power, Qinv_power. rewrite !Zpower_Qpower by auto. reflexivity.
Qed.

Lemma rpow_total x y : canonical x -> (0 <= y \/ num x <> 0) ->
  exists s, rpow x y = Ok s /\ (value s == value x ^ y)%Q.
Proof.
  intros [Hx _] Hc. unfold rpow. destruct (Z.ltb_spec y 0) as [Hy|Hy].
  - rewrite !exp_poly_ok by lia.
    assert (num x ^ (- y) <> 0) by (apply Z.pow_nonzero; lia).
    assert (den x ^ (- y) <> 0) by (apply Z.pow_nonzero; lia).
    destruct (mk_total (den x ^ (- y)) (num x ^ (- y)) ltac:(auto)) as [s E]. exists s; split; auto.
    rewrite (value_mk _ _ _ E). rewrite (value_eq x) by auto.
    rewrite <- (Z.opp_involutive y) at 3. rewrite Qpower_opp, Qpower_nonneg_inject by lia.
    field. split; apply injz_nz; auto.
  - rewrite !exp_poly_ok by lia.
    assert (den x ^ y <> 0) by (apply Z.pow_nonzero; lia).
    destruct (mk_total (num x ^ y) (den x ^ y) ltac:(auto)) as [s E]. exists s; split; auto.
    rewrite (value_mk _ _ _ E). rewrite (value_eq x) by auto.
    rewrite Qpower_nonneg_inject by lia. reflexivity.
Qed.

Lemma req_ok l r : canonical l -> canonical r -> (req l r = true <-> (value l == value r)%Q).
Proof.
  intros [Hl _] [Hr _]. unfold req, value, Qeq; cbn [Qnum Qden]. rewrite !Z2Pos.id by auto.
  rewrite Z.eqb_eq. lia.
Qed.
Lemma rlt_ok l r : canonical l -> canonical r -> (rlt l r = true <-> (value l < value r)%Q).
Proof.
  intros [Hl _] [Hr _]. unfold rlt, value, Qlt; cbn [Qnum Qden]. rewrite !Z2Pos.id by auto.
  rewrite Z.ltb_lt. lia.
Qed.
Lemma rle_ok l r : canonical l -> canonical r -> (rle l r = true <-> (value l <= value r)%Q).
Proof.
  intros [Hl _] [Hr _]. unfold rle, value, Qle; cbn [Qnum Qden]. rewrite !Z2Pos.id by auto.
  rewrite Z.leb_le. lia.
Qed.
Lemma rgt_ok l r : canonical l -> canonical r -> (rgt l r = true <-> (value r < value l)%Q).
Proof.
  intros Hl Hr. unfold rgt. rewrite Bool.negb_true_iff, <- Bool.not_true_iff_false, rle_ok by auto.
  split; [apply Qnot_le_lt|apply Qlt_not_le].
Qed.
Lemma rge_ok l r : canonical l -> canonical r -> (rge l r = true <-> (value r <= value l)%Q).
Proof.
  intros Hl Hr. unfold rge. rewrite Bool.negb_true_iff, <- Bool.not_true_iff_false, rlt_ok by auto.
  split; [apply Qnot_lt_le|apply Qle_not_lt].
Qed.
Lemma rne_ok l r : canonical l -> canonical r -> (rne l r = true <-> ~ (value l == value r)%Q).
Proof.
  intros Hl Hr. unfold rne. rewrite Bool.negb_true_iff, <- Bool.not_true_iff_false, req_ok by auto. tauto.
Qed.

Lemma rabs_total r : canonical r -> exists s, rabs r = Ok s /\ (value s == Qabs (value r))%Q.
Proof.
  intros Hc. unfold rabs. change mk_zero with (@Ok rational (R 0 1)). cbn [bind].
  assert (H0 : canonical (R 0 1)) by (split; reflexivity).
  assert (Hl := rlt_ok r (R 0 1) Hc H0).
  assert (E0 : (value (R 0 1) == 0)%Q) by reflexivity. rewrite E0 in Hl.
  destruct (rlt r (R 0 1)).
  - destruct (rneg_total r Hc) as (s & Hs & Hv). exists s; split; auto. rewrite Hv.
    symmetry. apply Qabs_neg. apply Qlt_le_weak. tauto.
  - exists r; split; auto. symmetry. apply Qabs_pos. apply Qnot_lt_le. intros H. apply Hl in H. discriminate.
Qed.

(** Setters *)
Lemma set_num_prev x n : canonical x -> call_set_num x n = Ok (num x, x).
Proof.
  intros [Hx _]. unfold call_set_num, set_num_body. rewrite gcd_ok by lia. reflexivity.
Qed.
Lemma set_den_prev x d : canonical x -> d <> 0 -> call_set_den x d = Ok (den x, x).
Proof.
  intros [Hx _] Hd. unfold call_set_den, set_den_body, simplify.
  destruct (Z.eqb_spec d 0); [lia|].
  destruct (Z.ltb_spec d 0); rewrite gcd_ok by lia; reflexivity.
Qed.
(** The value the callee computes is right; only the write-back is missing. *)
Lemma set_num_copy x n prev r : canonical x -> set_num_body x n = Ok (prev, r) -> mk n (den x) = Ok r.
Proof.
  intros [Hx _]. unfold set_num_body. rewrite gcd_ok by lia. cbn [bind]. intros H; injection H as <- <-.
  unfold mk, simplify. destruct (Z.eqb_spec (den x) 0); [lia|]. destruct (Z.ltb_spec (den x) 0); [lia|].
  rewrite gcd_ok by lia. reflexivity.
Qed.
Lemma set_den_copy x d prev r : set_den_body x d = Ok (prev, r) -> mk (num x) d = Ok r.
Proof.
  unfold set_den_body, mk. destruct (simplify (num x) d) as [[[a b] c]| |]; cbn [bind]; congruence.
Qed.
