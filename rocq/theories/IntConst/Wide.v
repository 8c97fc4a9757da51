From Coq Require Import ZArith Bool Ascii String List Lia ZifyBool.
From Verif Require Import IntConst.Model IntConst.Spec IntConst.Proofs IntConst.Values.
Import ListNotations.
Open Scope Z_scope.

Local Notation length := List.length.

(* ---- binary ---- *)

(* how many of the digits scanbin reads, of n digits followed by r more characters *)
Definition bin_read (n r : nat) : nat := if Nat.leb (n + r) 2 then n else Nat.min n (n + r - 2).

Lemma lor_shift a b k : 0 <= k -> 0 <= a < 2 ^ k -> Z.lor a (Z.shiftl b k) = a + b * 2 ^ k.
Proof.
  intros Hk Ha. rewrite <- Z.shiftl_mul_pow2 by auto.
  assert (L : Z.land a (Z.shiftl b k) = 0).
  { apply Z.bits_inj'. intros i Hi. rewrite Z.land_spec, Z.bits_0.
    destruct (Z.ltb_spec i k).
    - rewrite Z.shiftl_spec_low by auto. apply andb_false_r.
    - destruct (Z.eq_dec a 0) as [->|]; [now rewrite Z.bits_0|].
      rewrite Z.bits_above_log2; [reflexivity|lia|].
      apply Z.log2_lt_pow2; [lia|]. eapply Z.lt_le_trans; [apply Ha|]. apply Z.pow_le_mono_r; lia. }
  rewrite Z.add_nocarry_lxor by auto. symmetry. now apply Z.lxor_lor.
Qed.

Lemma lor_one v : Z.lor (2 * v) 1 = 2 * v + 1.
Proof.
  rewrite Z.lor_comm. replace (2 * v) with (Z.shiftl v 1) at 1 by (rewrite Z.shiftl_mul_pow2; lia).
  rewrite lor_shift; lia.
Qed.

Lemma scanbin_loop_ok b0 b1 rest : stop rest -> (forall c r, rest = c :: r -> c <> nul) ->
  forall ys xs c m n fuel,
  denotes 2 xs m -> denotes 2 (xs ++ c :: ys) n -> n < 2 ^ 64 ->
  ((length (xs ++ c :: ys) + length rest <= 2)%nat \/
   (length xs < length (xs ++ c :: ys) + length rest - 2)%nat) ->
  (length ys < fuel)%nat ->
  exists k, scanbin_loop fuel (b0 :: b1 :: (xs ++ c :: ys) ++ rest) (2 + length xs) (2 * m) = Some k /\
    denotes 2 (firstn (bin_read (length (xs ++ c :: ys)) (length rest)) (xs ++ c :: ys)) k.
Proof.
  intros St Nn. induction ys as [|c' ys IH]; intros xs c m n fuel Dx D Hn J F;
    (destruct fuel as [|fuel]; [lia|]); cbn [scanbin_loop].
  - assert (Ec : at_ (b0 :: b1 :: (xs ++ [c]) ++ rest) (2 + length xs) = c).
    { unfold at_. cbn [Nat.add nth]. rewrite <- app_assoc. rewrite app_nth2 by lia.
      now rewrite Nat.sub_diag. }
    rewrite Ec. apply den_snoc_inv in D as (m' & d & D' & S & L & ->).
    assert (m' = m) by (eapply den_fun; eauto). subst m'.
    assert (Ev : (if eqc c "1" then Z.lor (2 * m) 1 else 2 * m) = m * 2 + d).
    { pose proof (stands_all c d S) as (_ & _ & _ & _ & (S0 & _) & (S1 & S1') & _).
      destruct S as (R & _). unfold eqc. destruct (Ascii.eqb_spec c "1").
      - rewrite lor_one. specialize (S1 e). lia.
      - assert (d <> 1) by tauto. lia. }
    rewrite Ev.
    assert (Er : at_ (b0 :: b1 :: (xs ++ [c]) ++ rest) (Datatypes.S (2 + length xs)) = at_ rest 0).
    { unfold at_. cbn [Nat.add nth]. rewrite app_nth2 by (rewrite app_length; cbn; lia).
      rewrite app_length. cbn [List.length].
      now replace (Datatypes.S (length xs) - (length xs + 1))%nat with 0%nat by lia. }
    rewrite Er.
    assert (E0 : negb (eqc (at_ rest 0) "0") && negb (eqc (at_ rest 0) "1") = true).
    { destruct St as [->|(a & r & -> & Ea)]; [reflexivity|]. cbn. unfold eqc.
      destruct (Ascii.eqb_spec a "0"); [subst; discriminate|].
      destruct (Ascii.eqb_spec a "1"); [subst; discriminate|]. reflexivity. }
    rewrite E0, orb_true_r. eexists. split; [reflexivity|].
    rewrite firstn_all2. { constructor; auto. }
    unfold bin_read. rewrite !app_length in *. cbn [List.length] in *. destruct (Nat.leb_spec (length xs + 1 + length rest) 2); lia.
  - assert (Ec : at_ (b0 :: b1 :: (xs ++ c :: c' :: ys) ++ rest) (2 + length xs) = c).
    { unfold at_. cbn [Nat.add nth]. rewrite <- app_assoc. rewrite app_nth2 by lia.
      now rewrite Nat.sub_diag. }
    rewrite Ec. change (c :: c' :: ys) with ([c] ++ c' :: ys) in *. rewrite app_assoc in *.
    pose proof D as D0. apply den_split in D0 as (m1 & k1 & D1 & D2 & En).
    pose proof D1 as D1'. apply den_snoc_inv in D1' as (m' & d & D' & S & L & Em1).
    assert (m' = m) by (eapply den_fun; eauto). subst m'.
    assert (Ev : (if eqc c "1" then Z.lor (2 * m) 1 else 2 * m) = m1).
    { pose proof (stands_all c d S) as (_ & _ & _ & _ & (S0 & _) & (S1 & S1') & _).
      destruct S as (R & _). unfold eqc. destruct (Ascii.eqb_spec c "1").
      - rewrite lor_one. specialize (S1 e). lia.
      - assert (d <> 1) by tauto. lia. }
    rewrite Ev.
    assert (Er : at_ (b0 :: b1 :: ((xs ++ [c]) ++ c' :: ys) ++ rest) (Datatypes.S (2 + length xs)) = c').
    { unfold at_. cbn [Nat.add nth]. rewrite <- app_assoc.
      rewrite app_nth2 by (rewrite app_length; cbn; lia).
      rewrite app_length. cbn [List.length]. replace (Datatypes.S (length xs) - (length xs + 1))%nat with 0%nat by lia. reflexivity. }
    rewrite Er.
    assert (E0 : negb (eqc c' "0") && negb (eqc c' "1") = false).
    { apply den_cons in D2 as (d' & k' & S' & L' & _).
      pose proof (stands_all c' d' S') as (_ & _ & _ & _ & (_ & S0) & (_ & S1) & _).
      destruct S' as (R & _). assert (d' = 0 \/ d' = 1) as [-> | ->] by lia.
      - rewrite S0 by auto. reflexivity.
      - rewrite S1 by auto. reflexivity. }
    rewrite E0, orb_false_r. cbn [List.length].
    destruct (Nat.eqb_spec (Datatypes.S (2 + length xs))
      (Datatypes.S (Datatypes.S (length (((xs ++ [c]) ++ c' :: ys) ++ rest))) - 1 - 1)) as [Q|Q].
    + exists m1. split; [reflexivity|].
      rewrite (app_length _ rest) in Q.
      replace (bin_read (length ((xs ++ [c]) ++ c' :: ys)) (length rest)) with (length (xs ++ [c])).
      { rewrite firstn_app, Nat.sub_diag, firstn_all. cbn [firstn]. now rewrite app_nil_r. }
      unfold bin_read. rewrite !app_length in *. cbn [List.length] in *.
      destruct (Nat.leb_spec (length xs + 1 + Datatypes.S (length ys) + length rest) 2); lia.
    + replace (Datatypes.S (2 + length xs)) with (2 + length (xs ++ [c]))%nat
        by (rewrite app_length; cbn; lia).
      rewrite (Z.shiftl_mul_pow2 m1 1) by lia. rewrite Z.pow_1_r.
      assert (w64 (m1 * 2) = 2 * m1) as ->.
      { unfold w64. rewrite Z.mod_small; [lia|].
        pose proof (den_range 2 _ _ ltac:(lia) D1). pose proof (den_range 2 _ _ ltac:(lia) D2).
        cbn [List.length] in En. rewrite Nat2Z.inj_succ, Z.pow_succ_r in En by lia.
        assert (1 <= 2 ^ Z.of_nat (length ys)) by (apply (Z.pow_le_mono_r 2 0); lia). nia. }
      apply (IH (xs ++ [c]) c' m1 n fuel); auto.
      * rewrite (app_length _ rest) in Q. rewrite !app_length in *. cbn [List.length] in *. lia.
      * cbn [List.length] in F. lia.
Qed.

Lemma scanbin_ok b0 b1 ds n rest : stop rest -> (forall c r, rest = c :: r -> c <> nul) ->
  denotes 2 ds n -> ds <> [] -> n < 2 ^ 64 ->
  scanbin (b0 :: b1 :: ds ++ rest) =
    Some (n / 2 ^ Z.of_nat (length ds - bin_read (length ds) (length rest))).
Proof.
  intros St Nn D N Hn. destruct ds as [|c ds]; [congruence|]. unfold scanbin.
  destruct (scanbin_loop_ok b0 b1 rest St Nn ds [] c 0 n (length (b0 :: b1 :: (c :: ds) ++ rest)))
    as (k & E & K); auto.
  - constructor.
  - cbn [List.length app]. rewrite ?app_length. lia.
  - cbn [List.length]. rewrite app_length. cbn [List.length]. lia.
  - cbn [app] in E. rewrite Z.mul_0_r in E. cbn [Nat.add List.length] in E. cbn [app].
    etransitivity; [exact E|]. f_equal. cbn [app] in K.
    set (q := bin_read (length (c :: ds)) (length rest)) in *.
    rewrite <- (firstn_skipn q (c :: ds)) in D. apply den_split in D as (m & k' & D1 & D2 & ->).
    assert (m = k) by (eapply den_fun; eauto). subst m.
    rewrite skipn_length. rewrite Z.div_add_l by (apply Z.pow_nonzero; lia).
    pose proof (den_range 2 _ _ ltac:(lia) D2) as R. rewrite skipn_length in R.
    rewrite Z.div_small by auto. lia.
Qed.

Lemma rest_nonul su rest : c_suffix su -> In rest (suffix_texts su) -> forall c r, rest = c :: r -> c <> nul.
Proof.
  intros C I. destruct su as [[]|[]|[]| |]; cbn in C;
    (try (exfalso; decompose [or] C; discriminate)); try contradiction;
    cbn in I; repeat (destruct I as [I|I]; [subst rest|]); try contradiction; intros c r E;
    try discriminate E; injection E as <- _; discriminate.
Qed.

Lemma bin64 ds su s n : literal Bin ds su s n -> len_of su <> L128 -> n < 2 ^ 64 ->
  exists e rest, build_constantInteger s = Ok e /\ In rest (suffix_texts (sfx_rest su)) /\
    value_of e = n / 2 ^ Z.of_nat (length ds - bin_read (length ds) (length rest)) /\
    (exists pre, In pre (prefixes Bin) /\ text_of e = Some (pre ++ ds ++ rest)).
Proof.
  intros L Hl Hn.
  assert (N0 : s <> ["0"%char]) by (intros ->; apply zero_literal in L as (? & _); discriminate).
  assert (N1 : s <> ["1"%char]) by (intros ->; apply one_literal in L as (? & _); discriminate).
  destruct (build_ok Bin ds su s n L N0 N1) as (pre & rest & I & Ir & _ & B).
  destruct L as (_ & _ & _ & _ & _ & D & N & _).
  assert (St := rest_stop _ _ (rest_c su) Ir). assert (Nn := rest_nonul _ _ (rest_c su) Ir).
  cbn [read after] in B. unfold bin_value in B.
  replace (sfx_type su =? 5) with false in B
    by (symmetry; destruct su as [[]|[]|[]| |]; cbn in *; congruence).
  cbn [andb] in B.
  assert (Hs : scanbin (pre ++ ds ++ rest) = Some (n / 2 ^ Z.of_nat (length ds - bin_read (length ds) (length rest)))).
  { cbn in I. repeat (destruct I as [I|I]; [subst pre|]); try contradiction;
      cbn [app]; apply (scanbin_ok _ _ ds n rest); auto; apply N; discriminate. }
  rewrite Hs in B. cbn [need] in B.
  destruct (finish_ok Bin su (single (pre ++ ds ++ rest) (n / 2 ^ Z.of_nat (length ds - bin_read (length ds) (length rest)))))
    as (e & E & _ & V & _).
  cbn [after] in B. rewrite E in B. destruct (V Hl) as (V1 & V2). exists e, rest. repeat (split; auto). exists pre. auto.
Qed.

(* ---- 128 bits ---- *)

Definition pair_value (v v2 : Z) : Z := if v2 =? 0 then v else v * 2 ^ 64 + v2.

Lemma finish128 r su p : len_of su = L128 ->
  exists e, after r su (Ok p) = Ok e /\ value_of e = pair_value (p_v p) (p_v2 p).
Proof.
  intros H. destruct (finish_ok r su p) as (e & E & K & _). exists e. split; [exact E|].
  rewrite (K H). unfold pair_value. destruct (Z.eqb_spec (p_v2 p) 0); cbn; [rewrite e0; lia|lia].
Qed.

Lemma pair_value_ok n : 0 <= n -> n < 2 ^ 64 \/ n mod 2 ^ 64 <> 0 ->
  pair_value (n / 2 ^ 64) (n mod 2 ^ 64) = n.
Proof.
  intros Hn H. unfold pair_value. pose proof (Z.div_mod n (2 ^ 64) ltac:(lia)) as E.
  destruct (Z.eqb_spec (n mod 2 ^ 64) 0) as [Q|Q]; [|lia].
  destruct H as [H|H]; [|congruence]. rewrite Z.mod_small in Q by lia. subst. reflexivity.
Qed.

Lemma pair_small v : pair_value v 0 = v.
Proof. reflexivity. Qed.

Lemma rest128 su rest : len_of su = L128 -> In rest (suffix_texts (sfx_rest su)) -> rest = [].
Proof. destruct su as [[]|[]|[]| |]; cbn; try discriminate; intros _ [H|[]]; auto. Qed.

Lemma type128 su : len_of su = L128 -> sfx_type su = 5.
Proof. destruct su as [[]|[]|[]| |]; cbn; congruence. Qed.

Lemma build128 r ds su s n : literal r ds su s n -> len_of su = L128 ->
  exists pre, In pre (prefixes r) /\
    build_constantInteger s = after r su (read r (pre ++ ds) 5 (unsigned su)).
Proof.
  intros L H.
  assert (N0 : s <> ["0"%char]) by (intros ->; apply zero_literal in L as (_ & _ & -> & _); discriminate).
  assert (N1 : s <> ["1"%char]) by (intros ->; apply one_literal in L as (_ & _ & -> & _); discriminate).
  destruct (build_ok r ds su s n L N0 N1) as (pre & rest & I & Ir & _ & B).
  apply (rest128 su) in Ir; auto. subst rest. rewrite app_nil_r in B. rewrite (type128 su H) in B. eauto.
Qed.

Lemma last_digits b ds n k : denotes b ds n -> (k <= length ds)%nat ->
  exists hi lo h l, ds = hi ++ lo /\ length lo = k /\ denotes b hi h /\ denotes b lo l /\
    n = h * b ^ Z.of_nat k + l.
Proof.
  intros D Hk. exists (firstn (length ds - k) ds), (skipn (length ds - k) ds).
  rewrite <- (firstn_skipn (length ds - k) ds) in D. apply den_split in D as (h & l & D1 & D2 & E).
  exists h, l. rewrite skipn_length in *. replace (length ds - (length ds - k))%nat with k in * by lia.
  split; [now rewrite firstn_skipn|auto].
Qed.

Lemma stop_nil : stop [].
Proof. now left. Qed.

Lemma hex128 ds su s n : literal Hex ds su s n -> len_of su = L128 -> (length ds <= 32)%nat ->
  n < 2 ^ 64 \/ n mod 2 ^ 64 <> 0 ->
  exists e, build_constantInteger s = Ok e /\ value_of e = n.
Proof.
  intros L H Hd Hn. destruct (build128 Hex ds su s n L H) as (pre & I & B).
  destruct L as (_ & _ & _ & _ & _ & D & N & _). cbn [base] in D.
  assert (exists x, pre = ["0"%char; x] /\ checkX x = true) as (x & -> & Hx).
  { cbn in I. repeat (destruct I as [I|I]; [subst pre|]); try contradiction; eexists; split; reflexivity. }
  cbn [read] in B. unfold hex_value in B. cbn [app List.length] in B.
  change (5 <? 5) with false in B. cbv iota in B.
  destruct (Nat.ltb_spec (2 + 16 + 16) (Datatypes.S (Datatypes.S (length ds)))); [lia|].
  specialize (N ltac:(discriminate)).
  destruct (Nat.ltb_spec (2 + 16) (Datatypes.S (Datatypes.S (length ds)))) as [Q|Q].
  - destruct (last_digits 16 ds n 16 D ltac:(lia)) as (hi & lo & h & l & -> & Ll & Dh & Dl & En).
    assert (hi <> []). { intros ->. cbn in Q. lia. }
    rewrite app_length in *.
    replace (Datatypes.S (Datatypes.S (length hi + length lo)) - 16)%nat
      with (length (["0"%char; x] ++ hi) + 0)%nat in B by (rewrite app_length; cbn; lia).
    change ("0"%char :: x :: hi ++ lo) with ((["0"%char; x] ++ hi) ++ lo) in B.
    rewrite skipn_body, firstn_app_2 in B. cbn [skipn firstn app] in B. rewrite !app_nil_r in B.
    assert (E1 : scanf 16 ("0"%char :: "x"%char :: lo) = Some (sat l)).
    { rewrite <- (app_nil_r lo). apply scanf_hex; auto using stop_nil. intros ->. discriminate. }
    assert (E2 : scanf 16 ("0"%char :: x :: hi) = Some (sat h)).
    { rewrite <- (app_nil_r hi). apply scanf_hex; auto using stop_nil. }
    rewrite E1, E2 in B. cbn [need] in B.
    destruct (finish128 Hex su _ H : exists e, after Hex su (Ok (Parts ("0"%char :: x :: hi) (sat h) ("0"%char :: "x"%char :: lo) (sat l))) = Ok e /\ _)
      as (e & E & V).
    rewrite E in B. exists e. split; [auto|]. rewrite V. cbn [p_v p_v2].
    pose proof (den_range 16 _ _ ltac:(lia) Dh) as Rh. pose proof (den_range 16 _ _ ltac:(lia) Dl) as Rl.
    rewrite Ll in Rl. change (16 ^ Z.of_nat 16) with (2 ^ 64) in *.
    assert (16 ^ Z.of_nat (length hi) <= 16 ^ 16) by (apply Z.pow_le_mono_r; lia).
    change (16 ^ 16) with (2 ^ 64) in *.
    rewrite !sat_id by lia.
    assert (h = n / 2 ^ 64) by (subst n; rewrite Z.div_add_l, Z.div_small; lia).
    assert (l = n mod 2 ^ 64).
    { subst n. rewrite Z.add_comm, Z.mod_add, Z.mod_small; lia. }
    rewrite H3, H4. apply pair_value_ok; auto. nia.
  - assert (E1 : scanf 16 ("0"%char :: x :: ds) = Some (sat n)).
    { rewrite <- (app_nil_r ds). apply scanf_hex; auto using stop_nil. }
    rewrite E1 in B. cbn [need] in B.
    destruct (finish128 Hex su (single ("0"%char :: x :: ds) (sat n)) H) as (e & E & V).
    rewrite E in B. exists e. split; [auto|]. rewrite V. cbn [p_v p_v2 single]. rewrite pair_small.
    pose proof (den_range 16 _ _ ltac:(lia) D) as R.
    assert (16 ^ Z.of_nat (length ds) <= 16 ^ 16) by (apply Z.pow_le_mono_r; lia).
    change (16 ^ 16) with (2 ^ 64) in *. apply sat_id. lia.
Qed.

Lemma set_at_body (xs ys : chars) y c : set_at (xs ++ y :: ys) (length xs) c = xs ++ c :: ys.
Proof. induction xs; cbn; [reflexivity|now rewrite IHxs]. Qed.

Lemma stop_nul r : stop (nul :: r).
Proof. right. exists nul, r. split; reflexivity. Qed.


Lemma den_zero b ds n : 0 < b -> denotes b ds n -> denotes b ("0"%char :: ds) n.
Proof.
  intros Hb H. change ("0"%char :: ds) with (["0"%char] ++ ds).
  replace n with (0 * b ^ Z.of_nat (length ds) + n) by lia. apply den_app; auto.
  apply (den_snoc b [] "0" 0 0); [constructor| |lia]. split; [lia|left; reflexivity].
Qed.

(* a string of digits cut by a stored null *)
Lemma scanf_cut b xs m r : b = 8 \/ b = 10 -> denotes b xs m -> xs <> [] ->
  scanf b (xs ++ nul :: r) = Some (sat m).
Proof. intros. apply scanf_plain; auto using stop_nul. Qed.

Lemma scanf_end b xs m : b = 8 \/ b = 10 -> denotes b xs m -> xs <> [] -> scanf b xs = Some (sat m).
Proof. intros. rewrite <- (app_nil_r xs). apply scanf_plain; auto using stop_nil. Qed.

Lemma oct_read128 ds n un : denotes 8 ds n -> n < 2 ^ 127 -> (length ds <= 43)%nat ->
  exists p, oct_value ("0"%char :: ds) 5 = Ok p /\
    ((length ds <= 21)%nat -> p_v p = n /\ p_v2 p = 0) /\
    ((21 < length ds)%nat -> p_v p = n / 2 ^ 64 /\ p_v2 p = n mod 2 ^ 64) /\ un = un :> bool.
Proof.
  intros D Hn Hl. unfold oct_value. change (5 <? 5) with false. cbv iota. cbn [List.length].
  change (code (at_ ("0"%char :: ds) 0)) with (code "0").
  change (code "3" <? code "0") with false. rewrite andb_false_r, orb_false_r.
  destruct (Nat.ltb_spec (1 + 43) (Datatypes.S (length ds))); [lia|].
  pose proof (den_range 8 _ _ ltac:(lia) D) as R.
  destruct (Nat.leb_spec (Datatypes.S (length ds)) (1 + 21)) as [Q|Q].
  - rewrite (scanf_end 8 _ n); [|auto|apply den_zero; [lia|auto]|discriminate]. cbn [need].
    eexists. split; [reflexivity|]. cbn.
    split; [|split; [lia|auto]]. intros _. split; auto. apply sat_id.
    assert (8 ^ Z.of_nat (length ds) <= 8 ^ 21) by (apply Z.pow_le_mono_r; lia).
    change (8 ^ 21) with (2 ^ 63) in *. lia.
  - destruct (last_digits 8 ds n 21 D ltac:(lia)) as (hi & lo & h & l & -> & Ll & Dh & Dl & En).
    assert (Nh : hi <> []) by (intros ->; cbn in Q; lia).
    rewrite app_length in *. rewrite Ll in *.
    replace (Datatypes.S (length hi + 21) - 21)%nat with (length ("0"%char :: hi) + 0)%nat by (cbn; lia).
    change ("0"%char :: hi ++ lo) with (("0"%char :: hi) ++ lo). rewrite skipn_body. cbn [skipn].
    rewrite (scanf_end 8 lo l); [|auto|auto|intros ->; discriminate]. cbn [need].
    destruct lo as [|y lo]; [discriminate|].
    rewrite Nat.add_0_r, set_at_body.
    pose proof (den_range 8 _ _ ltac:(lia) Dh) as Rh. pose proof (den_range 8 _ _ ltac:(lia) Dl) as Rl.
    rewrite Ll in Rl. change (8 ^ Z.of_nat 21) with (2 ^ 63) in *.
    assert (Hh : h < 2 ^ 64) by nia.
    assert (E1 : scanf 8 (skipn (if Nat.eqb (Datatypes.S (length hi + 21)) 43 then 1 else 0)
                            (("0"%char :: hi) ++ nul :: lo)) = Some h).
    { destruct (Nat.eqb_spec (Datatypes.S (length hi + 21)) 43); cbn [skipn app].
      - rewrite (scanf_cut 8 hi h); auto. now rewrite sat_id.
      - change ("0"%char :: hi ++ nul :: lo) with (("0"%char :: hi) ++ nul :: lo).
        rewrite (scanf_cut 8 ("0"%char :: hi) h); auto; [now rewrite sat_id|apply den_zero; [lia|auto]|discriminate]. }
    rewrite E1. cbn [need].
    assert (E2 : Z.lor (sat l) (Z.shiftl h 63 mod 2 ^ 128) = n).
    { rewrite sat_id by lia. rewrite Z.mod_small.
      - rewrite lor_shift by lia. lia.
      - rewrite Z.shiftl_mul_pow2 by lia. nia. }
    rewrite E2.
    assert (F : forall m, m = n -> exists p, Ok (Parts (hexprint (Z.shiftr m 64)) (Z.shiftr m 64) (hexprint (w64 m)) (w64 m)) = Ok p /\
       ((length hi + 21 <= 21)%nat -> p_v p = n /\ p_v2 p = 0) /\
       ((21 < length hi + 21)%nat -> p_v p = n / 2 ^ 64 /\ p_v2 p = n mod 2 ^ 64) /\ un = un :> bool).
    { intros m ->. eexists. split; [reflexivity|]. cbn [p_v p_v2]. rewrite Z.shiftr_div_pow2 by lia.
      split; [destruct hi; [congruence|cbn; lia]|]. split; auto. }
    destruct (Nat.eqb_spec (Datatypes.S (length hi + 21)) (1 + 43)) as [Q2|Q2]; [|now apply F].
    destruct hi as [|d0 [|d1 hi]]; [congruence|cbn in Q2; lia|].
    cbn [app set_at skipn].
    apply den_cons in Dh as (d & k & S & L & Dk & Eh).
    change (d0 :: nul :: hi ++ nul :: lo) with ([d0] ++ nul :: hi ++ nul :: lo).
    rewrite (scanf_cut 8 [d0] d (hi ++ nul :: lo)); [|auto|apply (den_snoc 8 [] d0 d 0); [constructor|auto|lia]|discriminate].
    cbn [need]. apply F.
    pose proof (den_range 8 _ _ ltac:(lia) Dk) as Rk. destruct S as (Rd & _).
    assert (length (d1 :: hi) = 21%nat) as E21 by (cbn in *; lia).
    rewrite E21 in *. change (8 ^ Z.of_nat 21) with (2 ^ 63) in *.
    rewrite sat_id by lia.
    rewrite Z.mod_small by (rewrite Z.shiftl_mul_pow2 by lia; nia).
    assert (En' : n = Z.lor (k * 2 ^ 63 + l) (Z.shiftl d 126)).
    { rewrite lor_shift; [lia|lia|]. nia. }
    rewrite En', <- Z.lor_assoc, Z.lor_diag. reflexivity.
Qed.

Lemma oct128 ds su s n : literal Oct ds su s n -> len_of su = L128 -> (length ds <= 43)%nat ->
  n < 2 ^ 127 -> n < 2 ^ 64 \/ n mod 2 ^ 64 <> 0 ->
  exists e, build_constantInteger s = Ok e /\ value_of e = n.
Proof.
  intros L H Hd Hm Hn. destruct (build128 Oct ds su s n L H) as (pre & I & B).
  destruct L as (_ & _ & _ & _ & _ & D & N & _). cbn [base] in D.
  destruct I as [I|[]]; subst pre.
  destruct (oct_read128 ds n true D Hm Hd) as (p & E & P1 & P2 & _).
  cbn [read] in B. change (txt "0" ++ ds) with ("0"%char :: ds) in B. rewrite E in B.
  destruct (finish128 Oct su p H) as (e & Ee & V). rewrite Ee in B. exists e. split; auto. rewrite V.
  pose proof (den_range 8 _ _ ltac:(lia) D) as R.
  destruct (Nat.le_gt_cases (length ds) 21) as [Q|Q].
  - destruct (P1 Q) as (-> & ->). reflexivity.
  - destruct (P2 Q) as (-> & ->). apply pair_value_ok; [lia|auto].
Qed.

(* ---- decimal ---- *)

Lemma greater_ok ds : forall es n m, denotes 10 ds n -> denotes 10 es m -> length ds = length es ->
  greater ds es = (m <? n).
Proof.
  induction ds as [|c ds IH]; intros [|c' es] n m D E L; try discriminate L.
  - apply den_nil_inv in D, E. subst. reflexivity.
  - injection L as L. apply den_cons in D as (d & k & S & Ld & D & ->).
    apply den_cons in E as (d' & k' & S' & Ld' & E & ->). cbn [greater]. rewrite <- L.
    pose proof (den_range 10 _ _ ltac:(lia) D). pose proof (den_range 10 _ _ ltac:(lia) E).
    rewrite <- L in *. set (P := 10 ^ Z.of_nat (length ds)) in *.
    unfold eqc. destruct (Ascii.eqb_spec c c') as [Ec|Nc].
    + subst c'. assert (d' = d) by (apply stands_digit in S, S'; congruence). subst d'.
      rewrite (IH es k k'); auto. lia.
    + pose proof (stands_all c d S) as (Dc & _ & _ & (_ & _ & C) & _); [lia|].
      pose proof (stands_all c' d' S') as (Dc' & _ & _ & (_ & _ & C') & _); [lia|].
      rewrite C, C'.
      assert (d <> d').
      { intros ->. apply Nc. assert (code c = code c') as Q by congruence. unfold code in Q.
        apply N2Z.inj in Q. rewrite <- (ascii_N_embedding c), <- (ascii_N_embedding c'). congruence. }
      destruct (Z.ltb_spec (48 + d') (48 + d)); symmetry; nia.
Qed.

Lemma den_check b ds : 0 < b -> Forall (fun c => exists d, stands c d /\ d < b) ds -> exists n, denotes b ds n.
Proof.
  intros Hb. induction ds as [|c ds IH] using rev_ind; intros F.
  - exists 0. constructor.
  - apply Forall_app in F as (F1 & F2). destruct (IH F1) as (n & D). inversion F2 as [|? ? (d & S & L)]; subst.
    exists (n * b + d). constructor; auto.
Qed.

Lemma den_scan b ds n m : b <= 16 -> denotes b ds n -> ds <> [] -> scan_digits b ds None = Some m -> n = m.
Proof.
  intros Hb D N E. pose proof (scan_num b ds n [] Hb D N stop_nil) as E'. rewrite app_nil_r in E'. congruence.
Qed.

Lemma dec_limit t m : Forall (fun c => In c (txt "0123456789")) t -> t <> [] ->
  scan_digits 10 t None = Some m -> denotes 10 t m.
Proof.
  intros F N E. destruct (den_check 10 t) as (n & D); [lia| |].
  - eapply Forall_impl; [|exact F]. intros c I. cbn in I.
    repeat (destruct I as [<-|I]; [first
      [ exists 0; split; [split; [lia|left; reflexivity]|lia]
      | exists 1; split; [split; [lia|left; reflexivity]|lia]
      | exists 2; split; [split; [lia|left; reflexivity]|lia]
      | exists 3; split; [split; [lia|left; reflexivity]|lia]
      | exists 4; split; [split; [lia|left; reflexivity]|lia]
      | exists 5; split; [split; [lia|left; reflexivity]|lia]
      | exists 6; split; [split; [lia|left; reflexivity]|lia]
      | exists 7; split; [split; [lia|left; reflexivity]|lia]
      | exists 8; split; [split; [lia|left; reflexivity]|lia]
      | exists 9; split; [split; [lia|left; reflexivity]|lia] ]|]).
    contradiction.
  - now rewrite (den_scan 10 t n m ltac:(lia) D N E) in D.
Qed.

Lemma den_max_unsigned : denotes 10 max_unsigned (2 ^ 128 - 1).
Proof.
  apply dec_limit; [|discriminate|reflexivity].
  apply Forall_forall. intros c I. cbn in I. cbn. intuition (subst; tauto).
Qed.

Lemma den_max_signed : denotes 10 max_signed (2 ^ 127 - 1).
Proof.
  apply dec_limit; [|discriminate|reflexivity].
  apply Forall_forall. intros c I. cbn in I. cbn. intuition (subst; tauto).
Qed.

Lemma greater_limit ds n (un : bool) : denotes 10 ds n -> length ds = 39%nat ->
  greater ds (if un then max_unsigned else max_signed) = (2 ^ (if un then 128 else 127) - 1 <? n).
Proof.
  intros D L. destruct un.
  - apply greater_ok; auto using den_max_unsigned.
  - apply greater_ok; auto using den_max_signed.
Qed.

Lemma dec_read128 ds n un : denotes 10 ds n -> ds <> [] -> n < 2 ^ 127 -> (length ds <= 39)%nat ->
  exists p, dec_value ds 5 un = Ok p /\
    ((length ds <= 19)%nat -> p_v p = n /\ p_v2 p = 0) /\
    ((19 < length ds)%nat -> p_v p = n / 2 ^ 64 /\ p_v2 p = n mod 2 ^ 64).
Proof.
  intros D N Hn Hl. unfold dec_value. change (5 <? 5) with false. cbv iota.
  assert (G : Nat.eqb (length ds) 39 && greater ds (if un then max_unsigned else max_signed) = false).
  { destruct (Nat.eqb_spec (length ds) 39) as [Q|Q]; [|reflexivity]. cbn [andb].
    rewrite (greater_limit ds n un D Q). apply Z.ltb_ge. destruct un; lia. }
  rewrite G. pose proof (den_range 10 _ _ ltac:(lia) D) as R.
  destruct (Nat.leb_spec (length ds) 19) as [Q|Q].
  - rewrite (scanf_end 10 ds n) by auto. cbn [need].
    eexists. split; [reflexivity|]. cbn [p_v p_v2 single].
    split; [|lia]. intros _. split; auto. apply sat_id.
    assert (10 ^ Z.of_nat (length ds) <= 10 ^ 19) by (apply Z.pow_le_mono_r; lia). lia.
  - destruct (last_digits 10 ds n 19 D ltac:(lia)) as (hi & lo & h & l & -> & Ll & Dh & Dl & En).
    assert (Nh : hi <> []) by (intros ->; cbn in Q; lia).
    rewrite app_length in *. rewrite Ll in *.
    replace (length hi + 19 - 19)%nat with (length hi + 0)%nat by lia.
    rewrite skipn_body. cbn [skipn].
    rewrite (scanf_end 10 lo l); [|auto|auto|intros ->; discriminate]. cbn [need].
    destruct lo as [|y lo]; [discriminate|].
    rewrite Nat.add_0_r, set_at_body.
    pose proof (den_range 10 _ _ ltac:(lia) Dh) as Rh. pose proof (den_range 10 _ _ ltac:(lia) Dl) as Rl.
    rewrite Ll in Rl. change (10 ^ Z.of_nat 19) with P10 in *.
    assert (P10 = 10000000000000000000) as HP by reflexivity.
    assert (F : forall m, m = n -> exists p, Ok (Parts (hexprint (Z.shiftr m 64)) (Z.shiftr m 64) (hexprint (w64 m)) (w64 m)) = Ok p /\
       ((length hi + 19 <= 19)%nat -> p_v p = n /\ p_v2 p = 0) /\
       ((19 < length hi + 19)%nat -> p_v p = n / 2 ^ 64 /\ p_v2 p = n mod 2 ^ 64)).
    { intros m ->. eexists. split; [reflexivity|]. cbn [p_v p_v2]. rewrite Z.shiftr_div_pow2 by lia.
      split; [destruct hi; [congruence|cbn; lia]|]. split; auto. }
    assert (B : forall A (v : Z) (f : Z -> outcome A), v < 2 ^ 127 -> fits128 v f = f v).
    { intros A v f Hv. unfold fits128. destruct (Z.ltb_spec v (2 ^ 127)); [reflexivity|lia]. }
    rewrite (sat_id l) by lia.
    destruct (Nat.eqb_spec (length hi + 19) 39) as [Q2|Q2].
    + destruct hi as [|d0 hi]; [congruence|]. cbn [List.length] in *.
      apply den_cons in Dh as (d & k & S & L & Dk & Eh).
      pose proof (den_range 10 _ _ ltac:(lia) Dk) as Rk. destruct S as (Rd & S).
      assert (length hi = 19%nat) as E19 by lia. rewrite E19 in *.
      change (10 ^ Z.of_nat 19) with P10 in *. cbn [skipn app].
      rewrite (scanf_cut 10 hi k); [|auto|auto|intros ->; discriminate]. cbn [need].
      rewrite (sat_id k) by lia.
      rewrite !B by nia.
      destruct hi as [|d1 hi]; [discriminate|]. cbn [app set_at].
      change (d0 :: nul :: hi ++ nul :: lo) with ([d0] ++ nul :: (hi ++ nul :: lo)).
      rewrite (scanf_cut 10 [d0] d); [|auto|apply (den_snoc 10 [] d0 d 0); [constructor|split; auto|lia]|discriminate].
      cbn [need]. rewrite (sat_id d) by lia.
      assert (d * P10 * P10 + (k * P10 + l) = n) by nia.
      rewrite !B by nia. apply F. nia.
    + cbn [skipn]. rewrite (scanf_cut 10 hi h) by auto. cbn [need].
      assert (10 ^ Z.of_nat (length hi) <= 10 ^ 19) by (apply Z.pow_le_mono_r; lia).
      change (10 ^ 19) with P10 in *.
      rewrite (sat_id h) by lia. rewrite !B by nia. apply F. lia.
Qed.

Lemma dec128 ds su s n : literal Dec ds su s n -> len_of su = L128 -> (length ds <= 39)%nat ->
  n < 2 ^ 127 -> n < 2 ^ 64 \/ n mod 2 ^ 64 <> 0 ->
  exists e, build_constantInteger s = Ok e /\ value_of e = n.
Proof.
  intros L H Hd Hm Hn. destruct (build128 Dec ds su s n L H) as (pre & I & B).
  destruct L as (_ & _ & _ & _ & _ & D & N & _). cbn [base] in D.
  destruct I as [I|[]]; subst pre.
  destruct (dec_read128 ds n (unsigned su) D) as (p & E & P1 & P2); auto; [apply N; discriminate|].
  cbn [read app] in B. rewrite E in B.
  destruct (finish128 Dec su p H) as (e & Ee & V). rewrite Ee in B. exists e. split; auto. rewrite V.
  pose proof (den_range 10 _ _ ltac:(lia) D) as R.
  destruct (Nat.le_gt_cases (length ds) 19) as [Q|Q].
  - destruct (P1 Q) as (-> & ->). reflexivity.
  - destruct (P2 Q) as (-> & ->). apply pair_value_ok; [lia|auto].
Qed.

Lemma dec128_large ds su s n : literal Dec ds su s n -> len_of su = L128 -> length ds = 39%nat ->
  2 ^ (if unsigned su then 128 else 127) <= n -> build_constantInteger s = Error.
Proof.
  intros L H Hd Hm. destruct (build128 Dec ds su s n L H) as (pre & I & B).
  destruct L as (_ & _ & _ & _ & _ & D & N & _). cbn [base] in D.
  destruct I as [I|[]]; subst pre. cbn [read app] in B. unfold dec_value in B.
  change (5 <? 5) with false in B. cbv iota in B. rewrite Hd in B. cbn [Nat.eqb andb] in B.
  rewrite (greater_limit ds n (unsigned su) D Hd) in B.
  destruct (Z.ltb_spec (2 ^ (if unsigned su then 128 else 127) - 1) n); [|lia]. exact B.
Qed.
