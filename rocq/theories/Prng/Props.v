From Coq Require Import ZArith Lia.
From Verif.Prng Require Import Model Spec Proofs.
Local Open Scope Z_scope.

(** The scheduler's generator: stepping back undoes stepping forward and the other way round, on the 48-bit states, and
    the two directions produce the same numbers. *)
Theorem C09_lcgbi : forall rs, uint 48 rs ->
  snd (LCGBI_bck (snd (LCGBI_fwd rs))) = rs /\ snd (LCGBI_fwd (snd (LCGBI_bck rs))) = rs /\
  uint 48 (snd (LCGBI_fwd rs)) /\ uint 48 (snd (LCGBI_bck rs)) /\
  fst (LCGBI_bck (snd (LCGBI_fwd rs))) = fst (LCGBI_fwd rs).
Proof.
  intros rs R. unfold LCGBI_fwd, LCGBI_bck, LM, addw, mulw. cbn [fst snd].
  rewrite !uint_land_ones by lia.
  assert (M : forall x, (x mod 2 ^ 64) mod 2 ^ 48 = x mod 2 ^ 48).
  { intros x. symmetry. apply Znumtheory.Zmod_div_mod; try reflexivity. exists (2 ^ 16). reflexivity. }
  assert (MA : forall x, (x mod 2 ^ 64 + 11) mod 2 ^ 48 = (x + 11) mod 2 ^ 48).
  { intros x. rewrite <- Z.add_mod_idemp_l, M, Z.add_mod_idemp_l by lia. reflexivity. }
  assert (MM : forall c x, (c * (x mod 2 ^ 64)) mod 2 ^ 48 = (c * x) mod 2 ^ 48).
  { intros c x. rewrite <- Z.mul_mod_idemp_r, M, Z.mul_mod_idemp_r by lia. reflexivity. }
  assert (K : (LA * LAI) mod 2 ^ 48 = 1) by reflexivity.
  assert (K2 : forall x, (LA * LAI * x) mod 2 ^ 48 = x mod 2 ^ 48).
  { intros x. rewrite <- Z.mul_mod_idemp_l, K, Z.mul_1_l by lia. reflexivity. }
  split; [|split; [|split; [|split]]].
  - rewrite !M, MM, MA. rewrite <- Z.mul_mod_idemp_r by lia. rewrite <- Zminus_mod_idemp_l, Z.mod_mod, Zminus_mod_idemp_l by lia.
    rewrite Z.mul_mod_idemp_r by lia. replace (LAI * (LA * rs + 11 - 11)) with (LA * LAI * rs) by ring.
    rewrite K2. apply Z.mod_small. exact R.
  - rewrite !M, MA, MM. rewrite <- Z.add_mod_idemp_l, Z.mul_mod_idemp_r, Z.add_mod_idemp_l by lia.
    rewrite <- Z.add_mod_idemp_l by lia. replace (LA * (LAI * (rs - 11))) with (LA * LAI * (rs - 11)) by ring.
    rewrite K2, Z.add_mod_idemp_l by lia. replace (rs - 11 + 11) with rs by lia. apply Z.mod_small. exact R.
  - apply uint_mod. lia.
  - apply uint_mod. lia.
  - reflexivity.
Qed.
Print Assumptions C09_lcgbi.
Example ex_lcgbi : LCGBI_fwd 12345 = (454757875, 29803012144720) /\ LCGBI_bck 29803012144720 = (454757875, 12345).
Proof. vm_compute. auto. Qed.
(** the published test values of splitmix64 and xoshiro256++ *)
Example ex_xoshiro : fst (splitmix64 0) = 0xe220a8397b1dcdaf /\
  xoshiro256pp (Q 1 2 3 4) = (41943041, Q 7 0 262146 211106232532992).
Proof. vm_compute. auto. Qed.

(** Every other generator's step permutes its states. *)
Theorem C09_xorshift : permutes (uint 64) (fun s => snd (xorshift_13_7_17 s)) /\
  permutes (uint 32) (fun s => snd (xorshift_6_21_7 s)) /\ permutes (uint 64) (fun s => snd (xorshift_12_25_27 s)).
Proof.
  split; [|split].
  - apply (permutes_comp _ _ (fun x => Z.lxor (Z.lxor x (shl 64 x 13)) (shr (Z.lxor x (shl 64 x 13)) 7))
             (fun x => Z.lxor x (shl 64 x 17))); [|apply xorshl; lia].
    apply (permutes_comp _ _ (fun x => Z.lxor x (shl 64 x 13)) (fun x => Z.lxor x (shr x 7)));
      [apply xorshl|apply xorshr]; lia.
  - apply (permutes_comp _ _ (fun x => Z.lxor (Z.lxor x (shl 32 x 6)) (shr (Z.lxor x (shl 32 x 6)) 21))
             (fun x => Z.lxor x (shl 32 x 7))); [|apply xorshl; lia].
    apply (permutes_comp _ _ (fun x => Z.lxor x (shl 32 x 6)) (fun x => Z.lxor x (shr x 21)));
      [apply xorshl|apply xorshr]; lia.
  - apply (permutes_comp _ _ (fun x => Z.lxor (Z.lxor x (shr x 12)) (shl 64 (Z.lxor x (shr x 12)) 25))
             (fun x => Z.lxor x (shr x 27))); [|apply xorshr; lia].
    apply (permutes_comp _ _ (fun x => Z.lxor x (shr x 12)) (fun x => Z.lxor x (shl 64 x 25)));
      [apply xorshr|apply xorshl]; lia.
Qed.
Print Assumptions C09_xorshift.

Theorem C09_xoshiro : permutes (uint4 64) (fun q => snd (xoshiro256pp q)) /\ permutes (uint4 32) (fun q => snd (xoshiro128pp q)).
Proof. split; apply xoshiro_permutes; lia. Qed.
Print Assumptions C09_xoshiro.

Theorem C09_xorwow : permutes uint5 (fun r => snd (xorwow r)).
Proof. exact xorwow_permutes. Qed.
Print Assumptions C09_xorwow.

Theorem C09_counters : permutes (uint 64) (fun s => snd (splitmix64 s)) /\ permutes (uint 32) (fun s => snd (splitmix32 s)) /\
  permutes (uint 64) (fun s => snd (wyhash64 s)) /\ permutes (uint 128) (fun s => snd (lehmer64 s)).
Proof.
  split; [|split; [|split]]; try (apply add_const; lia).
  apply (mul_odd 128 _ 17048375810711327556880940056806348189); [lia|vm_compute; reflexivity].
Qed.
Print Assumptions C09_counters.

(** The xor-shift and congruential parts of kiss are permutations of 64-bit words. *)
Theorem C09_kiss_parts : permutes (uint 64) kiss_jsr /\ permutes (uint 64) kiss_jcong.
Proof.
  split.
  - apply (permutes_comp _ _ (fun x => Z.lxor (Z.lxor x (shl 64 x 13)) (shr (Z.lxor x (shl 64 x 13)) 17))
             (fun x => Z.lxor x (shl 64 x 5))); [|apply xorshl; lia].
    apply (permutes_comp _ _ (fun x => Z.lxor x (shl 64 x 13)) (fun x => Z.lxor x (shr x 17)));
      [apply xorshl|apply xorshr]; lia.
  - apply (permutes_ext _ _ (fun x => addw 64 (mulw 64 x 69069) 1234567)).
    + apply (permutes_comp _ _ (fun x => mulw 64 x 69069) (fun x => addw 64 x 1234567)); [|apply add_const; lia].
      apply (mul_odd 64 _ 10576784936904337157); [lia|vm_compute; reflexivity].
    + intros x X. unfold kiss_jcong, mulw. now rewrite (Z.mul_comm 69069).
Qed.
Print Assumptions C09_kiss_parts.

(** Its multiply-with-carry parts are not (two states have the same successor), and one of them is stuck for good in a
    non-zero state. *)
Theorem C09_kiss_mwc_refuted : ~ permutes (uint 64) (kiss_mwc 36969) /\
  exists x, uint 64 x /\ x <> 0 /\ forall n, after (kiss_mwc 36969) n x = x.
Proof.
  split.
  - intros P. assert (E : 1 = 36969 * 65536) by (apply (permutes_inj _ _ _ _ _ P); [split; lia|split; lia|vm_compute; reflexivity]).
    discriminate.
  - exists (36969 * 65536 - 1). split; [split; lia|]. split; [lia|]. induction n; cbn [after]; auto.
    rewrite IHn. vm_compute. reflexivity.
Qed.
Print Assumptions C09_kiss_mwc_refuted.

(** No generator with an absorbing zero state reaches it from another state, in any number of steps. *)
Theorem C09_never_zero : forall n,
  (forall s, uint 64 s -> s <> 0 -> after (fun s => snd (xorshift_13_7_17 s)) n s <> 0) /\
  (forall s, uint 32 s -> s <> 0 -> after (fun s => snd (xorshift_6_21_7 s)) n s <> 0) /\
  (forall s, uint 64 s -> s <> 0 -> after (fun s => snd (xorshift_12_25_27 s)) n s <> 0) /\
  (forall s, uint 128 s -> s <> 0 -> after (fun s => snd (lehmer64 s)) n s <> 0) /\
  (forall q, uint4 64 q -> q <> Q 0 0 0 0 -> after (fun q => snd (xoshiro256pp q)) n q <> Q 0 0 0 0) /\
  (forall q, uint4 32 q -> q <> Q 0 0 0 0 -> after (fun q => snd (xoshiro128pp q)) n q <> Q 0 0 0 0) /\
  (forall s, uint 64 s -> s <> 0 -> after kiss_jsr n s <> 0).
Proof.
  assert (K : forall A (P : A -> Prop) f z, permutes P f -> P z -> f z = z ->
    forall n x, P x -> x <> z -> after f n x <> z).
  { intros A P f z B Z E n x X N. apply (permutes_nonzero _ P); auto; [apply permutes_after; auto|].
    induction n; cbn [after]; congruence. }
  destruct C09_xorshift as (X1 & X2 & X3). destruct C09_xoshiro as (Y1 & Y2). destruct C09_counters as (_ & _ & _ & Z1).
  destruct C09_kiss_parts as (J & _).
  assert (U64 : uint 64 0) by (split; lia). assert (U32 : uint 32 0) by (split; lia).
  assert (U128 : uint 128 0) by (split; lia).
  assert (V64 : uint4 64 (Q 0 0 0 0)) by (unfold uint4; auto). assert (V32 : uint4 32 (Q 0 0 0 0)) by (unfold uint4; auto).
  intros n. repeat split.
  - apply (K _ _ _ _ X1 U64 eq_refl).
  - apply (K _ _ _ _ X2 U32 eq_refl).
  - apply (K _ _ _ _ X3 U64 eq_refl).
  - apply (K _ _ _ _ Z1 U128 eq_refl).
  - apply (K _ _ _ _ Y1 V64 eq_refl).
  - apply (K _ _ _ _ Y2 V32 eq_refl).
  - apply (K _ _ _ _ J U64 eq_refl).
Qed.
Print Assumptions C09_never_zero.

Theorem C09_kiss_mwc_nonzero : forall c x, 0 < c <= 65536 -> uint 64 x -> x <> 0 -> kiss_mwc c x <> 0.
Proof.
  intros c x C X N H. unfold kiss_mwc, addw, mulw, shr in H.
  change 65535 with (2 ^ 16 - 1) in H. rewrite uint_land_ones, Z.shiftr_div_pow2 in H by lia.
  pose proof (Z.mod_pos_bound x (2 ^ 16) ltac:(lia)). pose proof (Z.div_mod x (2 ^ 16) ltac:(lia)).
  assert (0 <= x / 2 ^ 16 < 2 ^ 48).
  { split; [apply Z.div_pos; [apply X|lia]|]. apply Z.div_lt_upper_bound; [lia|]. unfold uint in X. lia. }
  assert (0 <= c * (x mod 2 ^ 16) < 2 ^ 32) by nia.
  rewrite (Z.mod_small (c * (x mod 2 ^ 16)) (2 ^ 64)) in H by lia.
  rewrite (Z.mod_small (c * (x mod 2 ^ 16) + x / 2 ^ 16) (2 ^ 64)) in H by lia. nia.
Qed.
Print Assumptions C09_kiss_mwc_nonzero.

(** splitmix64 returns a permutation of its state, so four successive values are distinct and the seed of xoshiro256++ is
    never the zero state. *)
Theorem C09_xoshiro_seed : forall seed, uint 64 seed ->
  uint4 64 (xoshiro256pp_set_seed seed) /\ xoshiro256pp_set_seed seed <> Q 0 0 0 0.
Proof.
  intros seed S. unfold xoshiro256pp_set_seed, splitmix64.
  set (a := addw 64 seed _). set (b := addw 64 a _). set (c := addw 64 b _). set (d := addw 64 c _).
  assert (U : forall x, uint 64 (addw 64 x 0x9e3779b97f4a7c15)) by (intros; apply uint_mod; lia).
  assert (MU : forall x, uint 64 x -> uint 64 (mix64 x)) by (intros x X; exact (permutes_in _ (uint 64) mix64 x mix64_permutes X)).
  split.
  - unfold uint4. cbn [q0 q1 q2 q3]. repeat split; try apply MU; apply U.
  - intros E. assert (E1 : mix64 a = 0) by congruence. assert (E2 : mix64 b = 0) by congruence.
    assert (AB : a = b) by (apply (permutes_inj _ _ _ _ _ mix64_permutes); [apply U|apply U|congruence]).
    assert (A : uint 64 a) by apply U. unfold b, addw in AB. unfold uint in A.
    change 0x9e3779b97f4a7c15 with 11400714819323198485 in AB.
    destruct (Z.lt_ge_cases (a + 11400714819323198485) (2 ^ 64)).
    + rewrite Z.mod_small in AB; lia.
    + rewrite <- (Z.mod_add _ (-1)) in AB by lia. rewrite Z.mod_small in AB; lia.
Qed.
Print Assumptions C09_xoshiro_seed.
Theorem C09_splitmix64_output : forall s s', uint 64 s -> uint 64 s' -> fst (splitmix64 s) = fst (splitmix64 s') -> s = s'.
Proof.
  intros s s' S S' E. unfold splitmix64 in E. cbn [fst] in E.
  assert (F : addw 64 s 0x9e3779b97f4a7c15 = addw 64 s' 0x9e3779b97f4a7c15).
  { apply (permutes_inj _ _ _ _ _ mix64_permutes); auto; apply uint_mod; lia. }
  apply (permutes_inj _ _ _ _ _ (add_const 64 0x9e3779b97f4a7c15 ltac:(lia))); auto.
Qed.
Print Assumptions C09_splitmix64_output.

(** splitmix32 computes in 64 bits, and its output is not a permutation of its state. *)
Theorem C09_splitmix32_output_refuted : exists s s', uint 32 s /\ uint 32 s' /\ s <> s' /\ fst (splitmix32 s) = fst (splitmix32 s').
Proof.
  exists ((3791 - 0x9e3779b9) mod 2 ^ 32), ((93425 - 0x9e3779b9) mod 2 ^ 32).
  split; [apply uint_mod; lia|]. split; [apply uint_mod; lia|]. split; [vm_compute; discriminate|vm_compute; reflexivity].
Qed.
Print Assumptions C09_splitmix32_output_refuted.

(** "must be seeded with a nonzero value": one seed puts each of these generators into the absorbing zero state, where
    every number they return is zero. *)
Theorem C09_seed_refuted :
  (exists seed, uint 64 seed /\ xorshift_13_7_17_set_seed seed = 0 /\ xorshift_12_25_27_set_seed seed = 0 /\
     lehmer64_set_seed seed = 0) /\
  (exists seed, uint 32 seed /\ xorshift_6_21_7_set_seed seed = 0) /\
  xorshift_13_7_17 0 = (0, 0) /\ xorshift_12_25_27 0 = (0, 0) /\ lehmer64 0 = (0, 0) /\ xorshift_6_21_7 0 = (0, 0).
Proof.
  split; [|split; [|vm_compute; auto]].
  - exists 7046029254386353131. split; [split; lia|]. vm_compute. auto.
  - exists 1640531527. split; [split; lia|]. vm_compute. auto.
Qed.
Print Assumptions C09_seed_refuted.
(** ... and only that one. *)
Theorem C09_seed_nonzero : forall seed, uint 64 seed -> seed <> 7046029254386353131 -> xorshift_13_7_17_set_seed seed <> 0.
Proof.
  intros seed S N E. apply N. apply (C09_splitmix64_output _ _ S); [split; lia|].
  unfold xorshift_13_7_17_set_seed in E. rewrite E. vm_compute. reflexivity.
Qed.
Print Assumptions C09_seed_nonzero.
