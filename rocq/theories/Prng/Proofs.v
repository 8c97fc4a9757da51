From Coq Require Import ZArith Lia Bool ZifyBool.
From Verif.Prng Require Import Model Spec.
Local Open Scope Z_scope.

Lemma permutes_comp : forall A (P : A -> Prop) f g, permutes P f -> permutes P g -> permutes P (fun x => g (f x)).
Proof.
  intros A P f g (f' & F) (g' & G). exists (fun x => f' (g' x)). intros x X.
  destruct (F x X) as (F1 & F2 & F3 & F4). destruct (G x X) as (G1 & G2 & G3 & G4).
  destruct (G (f x) F1) as (A1 & _ & A3 & _). destruct (F (g' x) G2) as (_ & B2 & _ & B4).
  repeat split; auto; congruence.
Qed.

Lemma permutes_ext : forall A (P : A -> Prop) f g, permutes P f -> (forall x, P x -> g x = f x) -> permutes P g.
Proof.
  intros A P f g (f' & F) E. exists f'. intros x X. destruct (F x X) as (F1 & F2 & F3 & F4).
  rewrite !E by auto. auto.
Qed.

Lemma permutes_inj : forall A (P : A -> Prop) f x y, permutes P f -> P x -> P y -> f x = f y -> x = y.
Proof.
  intros A P f x y (g & G) X Y E. destruct (G x X) as (_ & _ & G1 & _). destruct (G y Y) as (_ & _ & G2 & _). congruence.
Qed.

Lemma permutes_in : forall A (P : A -> Prop) f x, permutes P f -> P x -> P (f x).
Proof. intros A P f x (g & G) X. apply G; auto. Qed.

Lemma permutes_nonzero : forall A (P : A -> Prop) f z x, permutes P f -> P z -> f z = z -> P x -> x <> z -> f x <> z.
Proof. intros A P f z x B Z E X N H. apply N. apply (permutes_inj _ P f); auto. congruence. Qed.

Lemma permutes_after : forall A (P : A -> Prop) f, permutes P f -> forall n, permutes P (after f n).
Proof.
  intros A P f B. induction n; cbn [after].
  - exists (fun x => x). auto.
  - apply (permutes_comp _ _ (after f n) f); auto.
Qed.

Lemma pow2_pos : forall w, 0 <= w -> 0 < 2 ^ w.
Proof. intros. apply Z.pow_pos_nonneg; lia. Qed.

Lemma uint_bits : forall w x, 0 <= w -> (uint w x <-> 0 <= x /\ forall i, w <= i -> Z.testbit x i = false).
Proof.
  intros w x HW. split.
  - intros (L & U). split; auto. intros i I. destruct (Z.eq_dec x 0) as [->|N]; [apply Z.bits_0|].
    apply Z.bits_above_log2; auto. apply Z.log2_lt_pow2 in U; lia.
  - intros (L & B). split; auto. destruct (Z.eq_dec x 0) as [->|N]; [apply pow2_pos; auto|].
    apply Z.log2_lt_pow2; [lia|]. destruct (Z.lt_ge_cases (Z.log2 x) w) as [|G]; auto.
    specialize (B (Z.log2 x) G). rewrite Z.bit_log2 in B by lia. discriminate.
Qed.

Lemma uint_ext : forall w x y, 0 <= w -> uint w x -> uint w y ->
  (forall i, 0 <= i < w -> Z.testbit x i = Z.testbit y i) -> x = y.
Proof.
  intros w x y HW X Y E. apply uint_bits in X as (X1 & X2); auto. apply uint_bits in Y as (Y1 & Y2); auto.
  apply Z.bits_inj'. intros i I. destruct (Z.lt_ge_cases i w); [apply E; lia|]. now rewrite X2, Y2 by lia.
Qed.

Lemma uint_xor : forall w x y, 0 <= w -> uint w x -> uint w y -> uint w (Z.lxor x y).
Proof.
  intros w x y HW X Y. apply uint_bits in X as (X1 & X2); auto. apply uint_bits in Y as (Y1 & Y2); auto.
  apply uint_bits; auto. split; [apply Z.lxor_nonneg; tauto|]. intros i I. rewrite Z.lxor_spec, X2, Y2 by lia. reflexivity.
Qed.

Lemma shl_bit : forall w x k i, 0 <= w -> 0 <= k -> 0 <= i ->
  Z.testbit (shl w x k) i = (i <? w) && (k <=? i) && Z.testbit x (i - k).
Proof.
  intros w x k i HW K I. unfold shl. rewrite Z.land_spec, Z.shiftl_spec by lia. 
  destruct (Z.ltb_spec i w).
  - rewrite Z.ones_spec_low by lia. rewrite andb_true_r. cbn [andb]. destruct (Z.leb_spec k i); cbn [andb]; auto.
    apply Z.testbit_neg_r. lia.
  - rewrite Z.ones_spec_high by lia. rewrite andb_false_r. reflexivity.
Qed.

Lemma uint_shl : forall w x k, 0 <= w -> 0 <= k -> 0 <= x -> uint w (shl w x k).
Proof.
  intros w x k HW K X. apply uint_bits; auto. split.
  - unfold shl. apply Z.land_nonneg. left. apply Z.shiftl_nonneg. auto.
  - intros i I. rewrite shl_bit by lia. destruct (Z.ltb_spec i w); [lia|reflexivity].
Qed.

Lemma shr_bit : forall x k i, 0 <= i -> Z.testbit (shr x k) i = Z.testbit x (i + k).
Proof. intros. unfold shr. now apply Z.shiftr_spec. Qed.

Lemma uint_shr : forall w x k, 0 <= w -> 0 <= k -> uint w x -> uint w (shr x k).
Proof.
  intros w x k HW K X. apply uint_bits in X as (X1 & X2); auto. apply uint_bits; auto. split.
  - unfold shr. apply Z.shiftr_nonneg. auto.
  - intros i I. rewrite shr_bit by lia. apply X2. lia.
Qed.

(** x ^= op(x) where each bit of op(x) depends on bits of smaller measure only *)
Section XorStep.
  Variables (w : Z) (op : Z -> Z) (m : Z -> Z).
  Hypothesis HW : 0 <= w.
  Hypothesis Hm : forall i, 0 <= i < w -> 0 <= m i < w.
  Hypothesis Hop : forall x, uint w x -> uint w (op x).
  Definition agree (n x y : Z) : Prop := forall i, 0 <= i < w -> m i < n -> Z.testbit x i = Z.testbit y i.
  Hypothesis Hdep : forall n x y, uint w x -> uint w y -> agree n x y -> agree (n + 1) (op x) (op y).

  Fixpoint it (n : nat) (y : Z) : Z := match n with O => y | S n => Z.lxor y (op (it n y)) end.

  Lemma it_uint : forall n y, uint w y -> uint w (it n y).
  Proof using HW Hop. induction n; intros y Y; cbn [it]; auto. apply uint_xor; auto. Qed.

  Lemma it_left : forall x, uint w x -> forall n, agree (Z.of_nat n) (it n (Z.lxor x (op x))) x.
  Proof using HW Hm Hop Hdep.
    intros x X. induction n; intros i I M; [specialize (Hm i I); lia|]. cbn [it].
    rewrite !Z.lxor_spec. rewrite (Hdep (Z.of_nat n) (it n (Z.lxor x (op x))) x); auto; [| |lia].
    - destruct (Z.testbit x i), (Z.testbit (op x) i); reflexivity.
    - apply it_uint. apply uint_xor; auto.
  Qed.

  Lemma it_stable : forall y, uint w y -> forall n, agree (Z.of_nat n) (it (S n) y) (it n y).
  Proof using HW Hm Hop Hdep.
    intros y Y. induction n; intros i I M; [specialize (Hm i I); lia|].
    change (it (S (S n)) y) with (Z.lxor y (op (it (S n) y))). change (it (S n) y) with (Z.lxor y (op (it n y))) at 2.
    rewrite !Z.lxor_spec. f_equal. apply (Hdep (Z.of_nat n)); auto; try (apply it_uint; auto). lia.
  Qed.

  Lemma xor_step : permutes (uint w) (fun x => Z.lxor x (op x)).
  Proof using HW Hm Hop Hdep.
    exists (it (Z.to_nat w)). intros x X.
    assert (N : Z.of_nat (Z.to_nat w) = w) by lia.
    split; [apply uint_xor; auto|]. split; [apply it_uint; auto|]. split.
    - apply (uint_ext w); auto; [apply it_uint, uint_xor; auto|]. intros i I. apply it_left; auto.
      specialize (Hm i I). lia.
    - assert (E : it (S (Z.to_nat w)) x = it (Z.to_nat w) x).
      { apply (uint_ext w); auto; try (apply it_uint; auto). intros i I. apply it_stable; auto. specialize (Hm i I). lia. }
      cbn [it] in E. rewrite <- E at 1. rewrite Z.lxor_assoc, Z.lxor_nilpotent. apply Z.lxor_0_r.
  Qed.
End XorStep.

Lemma xorshl : forall w k, 0 <= w -> 0 < k -> permutes (uint w) (fun x => Z.lxor x (shl w x k)).
Proof.
  intros w k HW K. apply (xor_step w (fun x => shl w x k) (fun i => i)); auto; try lia.
  - intros x X. apply uint_shl; auto; [lia|apply X].
  - intros n x y X Y E i I M. rewrite !shl_bit by lia. destruct (Z.leb_spec k i); [|rewrite !andb_false_r; reflexivity].
    f_equal. apply E; lia.
Qed.

Lemma xorshr : forall w k, 0 <= w -> 0 < k -> permutes (uint w) (fun x => Z.lxor x (shr x k)).
Proof.
  intros w k HW K. apply (xor_step w (fun x => shr x k) (fun i => w - 1 - i)); auto; try lia.
  - intros x X. apply uint_shr; auto; lia.
  - intros n x y X Y E i I M. rewrite !shr_bit by lia. destruct (Z.lt_ge_cases (i + k) w) as [C|C].
    + apply E; lia.
    + apply uint_bits in X as (_ & X); auto. apply uint_bits in Y as (_ & Y); auto. now rewrite X, Y by lia.
Qed.

Lemma uint_mod : forall w x, 0 <= w -> uint w (x mod 2 ^ w).
Proof. intros w x HW. apply Z.mod_pos_bound. now apply pow2_pos. Qed.

Lemma mul_odd : forall w c d, 0 <= w -> (c * d) mod 2 ^ w = 1 mod 2 ^ w -> permutes (uint w) (fun x => mulw w x c).
Proof.
  intros w c d HW E. exists (fun x => mulw w x d). intros x X. pose proof (pow2_pos w HW). unfold mulw.
  split; [apply uint_mod; auto|]. split; [apply uint_mod; auto|].
  assert (R : forall e f, (e * f) mod 2 ^ w = 1 mod 2 ^ w -> (((x * e) mod 2 ^ w) * f) mod 2 ^ w = x).
  { intros e f Q. rewrite Z.mul_mod_idemp_l by lia. rewrite <- Z.mul_assoc. rewrite <- Z.mul_mod_idemp_r by lia.
    rewrite Q, Z.mul_mod_idemp_r by lia. rewrite Z.mul_1_r. apply Z.mod_small. exact X. }
  split; apply R; auto. rewrite Z.mul_comm. exact E.
Qed.

Lemma add_const : forall w c, 0 <= w -> permutes (uint w) (fun x => addw w x c).
Proof.
  intros w c HW. exists (fun x => addw w x (- c)). intros x X. pose proof (pow2_pos w HW). unfold addw.
  split; [apply uint_mod; auto|]. split; [apply uint_mod; auto|].
  split; rewrite Z.add_mod_idemp_l by lia; [replace (x + c + - c) with x by lia | replace (x + - c + c) with x by lia];
    apply Z.mod_small; exact X.
Qed.

Lemma uint_land_ones : forall w x, 0 <= w -> Z.land x (2 ^ w - 1) = x mod 2 ^ w.
Proof. intros w x HW. rewrite <- Z.land_ones by auto. f_equal. rewrite Z.ones_equiv. lia. Qed.

(** rotation *)
Lemma rotl_bit : forall w x k i, 0 < k < w -> uint w x -> 0 <= i < w ->
  Z.testbit (rotl w x k) i = Z.testbit x (if k <=? i then i - k else i - k + w).
Proof.
  intros w x k i K X I. unfold rotl. rewrite Z.lor_spec, shl_bit, shr_bit by lia.
  replace (i <? w) with true by lia. apply uint_bits in X as (_ & X); [|lia].
  destruct (Z.leb_spec k i); cbn [andb].
  - rewrite (X (i + (w - k))) by lia. apply orb_false_r.
  - rewrite orb_false_l. f_equal. lia.
Qed.

Lemma uint_rotl : forall w x k, 0 < k < w -> uint w x -> uint w (rotl w x k).
Proof.
  intros w x k K X. assert (S : uint w (shl w x k)) by (apply uint_shl; try lia; apply X).
  assert (R : uint w (shr x (w - k))) by (apply uint_shr; auto; lia).
  apply uint_bits in S as (S1 & S2); [|lia]. apply uint_bits in R as (R1 & R2); [|lia].
  apply uint_bits; [lia|]. unfold rotl. split; [apply Z.lor_nonneg; auto|].
  intros i I. rewrite Z.lor_spec, S2, R2 by lia. reflexivity.
Qed.

Lemma rotl_back : forall w x k, 0 < k < w -> uint w x -> rotl w (rotl w x k) (w - k) = x.
Proof.
  intros w x k K X. assert (R : uint w (rotl w x k)) by (apply uint_rotl; auto).
  apply (uint_ext w); auto; [lia|apply uint_rotl; auto; lia|].
  intros i I. rewrite rotl_bit by (auto; lia). destruct (Z.leb_spec (w - k) i).
  - rewrite rotl_bit by (auto; lia). destruct (Z.leb_spec k (i - (w - k))); f_equal; lia.
  - rewrite rotl_bit by (auto; lia). destruct (Z.leb_spec k (i - (w - k) + w)); f_equal; lia.
Qed.

Ltac xors := repeat rewrite Z.lxor_assoc.

Lemma xor_cancel : forall a b, Z.lxor a (Z.lxor a b) = b.
Proof. intros. rewrite <- Z.lxor_assoc, Z.lxor_nilpotent. apply Z.lxor_0_l. Qed.

(** equality of xor expressions by bits *)
Ltac bits :=
  apply Z.bits_inj'; let i := fresh "i" in let I := fresh "I" in intros i I; rewrite ?Z.lxor_spec;
  repeat match goal with |- context [Z.testbit ?x i] => destruct (Z.testbit x i) end; reflexivity.

Lemma xoshiro_permutes : forall w r1 sh r2, 0 < sh -> 0 < r2 < w ->
  permutes (uint4 w) (fun q => snd (xoshiro w r1 sh r2 q)).
Proof.
  intros w r1 sh r2 S R. assert (HW : 0 <= w) by lia. destruct (xorshl w sh HW S) as (g & G).
  exists (fun q => let '(Q a b c d) := q in
    let u := rotl w d (w - r2) in
    let s0 := Z.lxor a u in
    let s1 := g (Z.lxor b c) in
    let s2 := Z.lxor (Z.lxor b s1) s0 in
    Q s0 s1 s2 (Z.lxor u s1)).
  intros [s0 s1 s2 s3] (U0 & U1 & U2 & U3). cbn [q0 q1 q2 q3] in *. unfold xoshiro. cbn [snd].
  assert (SH : forall x, uint w x -> uint w (shl w x sh)) by (intros x X; apply uint_shl; try lia; apply X).
  split; [|split; [|split]].
  - assert (UR : uint w (rotl w (Z.lxor s3 s1) r2)) by (apply uint_rotl; auto using uint_xor).
    unfold uint4. cbn [q0 q1 q2 q3]. auto 10 using uint_xor.
  - destruct (G (Z.lxor s1 s2)) as (_ & G2 & _ & _); [apply uint_xor; auto|].
    assert (UR : uint w (rotl w s3 (w - r2))) by (apply uint_rotl; auto; lia).
    unfold uint4. cbn [q0 q1 q2 q3]. auto 10 using uint_xor.
  - rewrite rotl_back by (auto using uint_xor). destruct (G s1 U1) as (_ & _ & G3 & _).
    assert (E : Z.lxor (Z.lxor s1 (Z.lxor s2 s0)) (Z.lxor (Z.lxor s2 s0) (shl w s1 sh)) = Z.lxor s1 (shl w s1 sh)) by bits.
    rewrite E, G3. f_equal; bits.
  - destruct (G (Z.lxor s1 s2)) as (_ & G2 & _ & G4); [apply uint_xor; auto|].
    set (t := g (Z.lxor s1 s2)) in *. set (u := rotl w s3 (w - r2)).
    assert (UU : uint w u) by (apply uint_rotl; auto; lia).
    assert (T : shl w t sh = Z.lxor t (Z.lxor s1 s2)).
    { rewrite <- G4. now rewrite xor_cancel. }
    rewrite T. f_equal; try bits.
    replace (Z.lxor (Z.lxor u t) t) with u by bits. unfold u.
    replace r2 with (w - (w - r2)) at 2 by lia. apply rotl_back; auto. lia.
Qed.

Lemma xorwow_permutes : permutes uint5 (fun r => snd (xorwow r)).
Proof.
  assert (P : permutes (uint 32) (fun x => (fun y => Z.lxor y (shl 32 y 1)) ((fun y => Z.lxor y (shr y 2)) x))).
  { apply (permutes_comp _ _ (fun y => Z.lxor y (shr y 2)) (fun y => Z.lxor y (shl 32 y 1))); [apply xorshr; lia|apply xorshl; lia]. }
  destruct P as (g & G). destruct (add_const 32 362437) as (h & H); [lia|].
  exists (fun r => let '(W a b c d n) := r in W b c d (g (Z.lxor a (Z.lxor b (shl 32 b 4)))) (h n)).
  intros [a b c d n] (A & B & C & D & N). cbn [wa wb wc wd counter] in *. unfold xorwow. cbn [snd].
  assert (SH : forall x, uint 32 x -> uint 32 (shl 32 x 4)) by (intros x X; apply uint_shl; try lia; apply X).
  destruct (G d D) as (D1 & _ & D3 & _). destruct (H n N) as (N1 & N2 & N3 & N4).
  destruct (G (Z.lxor a (Z.lxor b (shl 32 b 4)))) as (_ & E2 & _ & E4).
  { repeat (apply uint_xor; auto); lia. }
  split; [|split; [|split]].
  - assert (UT := uint_xor 32 _ _ ltac:(lia) D1 (uint_xor 32 _ _ ltac:(lia) A (SH a A))).
    unfold uint5. cbn [wa wb wc wd counter]. auto 10.
  - unfold uint5. cbn [wa wb wc wd counter]. auto 10.
  - cbv zeta. rewrite N3. f_equal. etransitivity; [|exact D3]. f_equal.
    generalize (Z.lxor (Z.lxor d (shr d 2)) (shl 32 (Z.lxor d (shr d 2)) 1)). intros u. bits.
  - cbv zeta. rewrite N4. f_equal. rewrite E4. bits.
Qed.

Lemma mix64_permutes : permutes (uint 64) mix64.
Proof.
  unfold mix64.
  apply (permutes_comp _ _ (fun z => mulw 64 (Z.lxor z (shr z 30)) 0xbf58476d1ce4e5b9)
           (fun z => Z.lxor (mulw 64 (Z.lxor z (shr z 27)) 0x94d049bb133111eb) (shr (mulw 64 (Z.lxor z (shr z 27)) 0x94d049bb133111eb) 31))).
  - apply (permutes_comp _ _ (fun z => Z.lxor z (shr z 30)) (fun z => mulw 64 z 0xbf58476d1ce4e5b9)).
    + apply xorshr; lia.
    + apply (mul_odd 64 _ 10871156337175269513); [lia|vm_compute; reflexivity].
  - apply (permutes_comp _ _ (fun z => mulw 64 (Z.lxor z (shr z 27)) 0x94d049bb133111eb) (fun z => Z.lxor z (shr z 31))).
    + apply (permutes_comp _ _ (fun z => Z.lxor z (shr z 27)) (fun z => mulw 64 z 0x94d049bb133111eb)).
      * apply xorshr; lia.
      * apply (mul_odd 64 _ 3573116690164977347); [lia|vm_compute; reflexivity].
    + apply xorshr; lia.
Qed.
