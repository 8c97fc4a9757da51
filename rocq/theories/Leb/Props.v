From Coq Require Import ZArith List Bool Lia ZifyBool.
From Verif Require Import Leb.Model Leb.Spec Leb.Proofs.
Import ListNotations.
Open Scope Z_scope.
(** C117: encodings of at most ten bytes are read exactly, up to the width of the result, and nothing behind them is touched *)
Theorem C117_uleb : forall l rest, digits l -> (length l <= 10)%nat -> read_uleb128 (l ++ rest) = Ok (unsigned_value l mod 2 ^ 64, rest).
Proof. intros l rest Hl Hn. unfold read_uleb128. rewrite (loop_ok l Hl rest 0 0) by lia. cbn [bind]. rewrite Z.mul_1_r. reflexivity. Qed.
Print Assumptions C117_uleb.
Theorem C117_sleb : forall l rest, digits l -> (length l <= 10)%nat -> exists v, read_sleb128 (l ++ rest) = Ok (v, rest) /\ - 2 ^ 63 <= v < 2 ^ 63 /\ v mod 2 ^ 64 = signed_value l mod 2 ^ 64.
Proof.
  intros l rest Hl Hn. rewrite sleb_ok by assumption. eexists. split; [reflexivity|]. split; [|apply signed_mod]. unfold signed. assert (M := Z.mod_pos_bound (signed_value l) W eq_refl).
  change (2 ^ 63) with 9223372036854775808 in *. change W with 18446744073709551616 in *. destruct (Z.ltb_spec (signed_value l mod 18446744073709551616) 9223372036854775808); lia.
Qed.
Print Assumptions C117_sleb.
(** what the encoders of the standard write for a 64-bit number is read back *)
Theorem C117_round : forall v rest, (0 <= v < 2 ^ 64 -> read_uleb128 (encode_u 10 v ++ rest) = Ok (v, rest)) /\ (- 2 ^ 63 <= v < 2 ^ 63 -> read_sleb128 (encode_s 10 v ++ rest) = Ok (v, rest)).
Proof.
  intros v rest. assert (E70 : 2 ^ (7 * Z.of_nat 10) = 64 * 2 ^ 64) by reflexivity. assert (E69 : 2 ^ (7 * Z.of_nat 10 - 1) = 64 * 2 ^ 63) by reflexivity. split; intros Hv.
  - destruct (encode_u_ok 10 v) as [D [U L]]; [lia|lia|]. rewrite C117_uleb by assumption. rewrite U, Z.mod_small by lia. reflexivity.
  - destruct (encode_s_ok 10 v) as [D [U L]]; [lia|lia|]. rewrite sleb_ok by assumption. rewrite U, signed_id by lia. reflexivity.
Qed.
Print Assumptions C117_round.
(** the standard allows any number of padding bytes; behind more than ten bytes the shift is undefined *)
Theorem C117_padding_refuted : forall n b rest, (10 <= n)%nat -> 0 <= b < 128 ->
  let l := repeat 128 n ++ [b] in digits l /\ unsigned_value (repeat 128 n ++ [0]) = 0 /\ read_uleb128 (l ++ rest) = Undef /\ read_sleb128 (l ++ rest) = Undef.
Proof.
  intros n b rest Hn Hb l. assert (D : forall m c, 0 <= c < 128 -> digits (repeat 128 m ++ [c])) by (intros m c Hc; induction m as [|m IH]; cbn [repeat app]; constructor; try lia; exact IH).
  assert (U : forall m, unsigned_value (repeat 128 m ++ [0]) = 0).
  { intros m. induction m as [|m IH]; cbn [repeat app]; [reflexivity|]. rewrite unsigned_cons, IH by (apply digits_ne, D; lia). reflexivity. }
  assert (L : loop (l ++ rest) 0 0 = Undef).
  { unfold l. rewrite <- app_assoc. cbn [app]. apply loop_long; [apply Forall_forall; intros x Hx; apply repeat_spec in Hx; lia|rewrite repeat_length; lia|lia]. }
  split; [apply D, Hb|]. split; [apply U|]. unfold read_uleb128, read_sleb128. rewrite L. split; reflexivity.
Qed.
Print Assumptions C117_padding_refuted.
(** the formats of a fixed size: number, bytes, signed *)
Definition fixed : list (Z * (nat * bool)) := [(0, (8%nat, false)); (2, (2%nat, false)); (3, (4%nat, false)); (4, (8%nat, false)); (10, (2%nat, true)); (11, (4%nat, true)); (12, (8%nat, true))].
Definition in_range (n : nat) (sg : bool) (v : Z) : Prop := if sg then - 2 ^ (8 * Z.of_nat n - 1) <= v < 2 ^ (8 * Z.of_nat n - 1) else 0 <= v < 2 ^ (8 * Z.of_nat n).
(** the final address: null stays null, others are relative to the place of the number or to the base, and may be the place of the address *)
Definition address (encoding base u : Z) (load : Z -> Z) (v : Z) : Z :=
  if v =? 0 then 0 else let a := (v + (if (encoding / 16) mod 8 =? 1 then u else base)) mod 2 ^ 64 in if 128 <=? encoding then load a else a.
Lemma land_parts e : 0 <= e < 256 -> Z.land e 15 = e mod 16 /\ (Z.land e 112 =? 16) = ((e / 16) mod 8 =? 1) /\ negb (Z.land e 128 =? 0) = (128 <=? e) /\ Z.land e 7 = e mod 8.
Proof.
  intros H. split; [change 15 with (Z.ones 4); apply Z.land_ones; lia|]. split; [|split; [rewrite land128 by lia; lia|change 7 with (Z.ones 3); apply Z.land_ones; lia]].
  assert (E : Z.land e 112 = 16 * ((e / 16) mod 8)).
  { change 112 with (Z.shiftl (Z.ones 3) 4). rewrite (Z.mul_comm 16). change 16 with (2 ^ 4) at 2. rewrite <- Z.shiftl_mul_pow2 by lia. change 8 with (2 ^ 3). rewrite <- Z.land_ones by lia.
    change (e / 16) with (e / 2 ^ 4). rewrite <- Z.shiftr_div_pow2 by lia. apply Z.bits_inj'. intros n Hn. rewrite Z.land_spec. destruct (Z.lt_ge_cases n 4) as [L|L].
    - rewrite !Z.shiftl_spec_low by lia. apply andb_false_r.
    - rewrite !Z.shiftl_spec by lia. rewrite Z.land_spec, Z.shiftr_spec by lia. do 2 f_equal. lia. }
  rewrite E. destruct (Z.eqb_spec ((e / 16) mod 8) 1) as [->|N]; [reflexivity|]. apply Z.eqb_neq. lia.
Qed.
Theorem C117_fixed : forall encoding base u load f n sg v rest, 0 <= encoding < 256 -> encoding <> 80 -> encoding mod 16 = f -> In (f, (n, sg)) fixed -> in_range n sg v ->
  read_encoded encoding base u load (bytes n v ++ rest) = Ok (address encoding base u load (v mod 2 ^ 64), rest) /\ (encoding <> 255 -> size_of encoding = Ok (Z.of_nat n)).
Proof.
  intros encoding base u load f n sg v rest He H80 Hf Hin Hv. destruct (land_parts encoding He) as [E1 [E2 [E3 E4]]].
  assert (F : Z.land encoding 15 = f) by congruence. assert (G : Z.land encoding 7 = f mod 8).
  { rewrite E4, <- Hf. assert (D := Z.div_mod encoding 16 ltac:(lia)). rewrite D at 1. replace (16 * (encoding / 16) + encoding mod 16) with (encoding mod 16 + (2 * (encoding / 16)) * 8) by ring. apply Z_mod_plus_full. }
  split.
  - unfold read_encoded. destruct (Z.eqb_spec encoding 80); [congruence|]. cbv zeta. rewrite F.
    assert (R : (if f =? 0 then le 8 (bytes n v ++ rest) else if f =? 1 then read_uleb128 (bytes n v ++ rest) else if f =? 9 then bind (read_sleb128 (bytes n v ++ rest)) (fun '(v, p) => Ok (v mod W, p)) else
      if f =? 2 then le 2 (bytes n v ++ rest) else if f =? 3 then le 4 (bytes n v ++ rest) else if f =? 4 then le 8 (bytes n v ++ rest) else
      if f =? 10 then sle 2 (bytes n v ++ rest) else if f =? 11 then sle 4 (bytes n v ++ rest) else if f =? 12 then sle 8 (bytes n v ++ rest) else Abort) = Ok (v mod 2 ^ 64, rest)).
    { unfold in_range in Hv. cbn [In fixed] in Hin. repeat (destruct Hin as [Hin|Hin]; [injection Hin as <- <- <-; cbn [Z.eqb Pos.eqb]; first [rewrite le_bytes by exact Hv; rewrite Z.mod_small; [reflexivity|]; change (2 ^ (8 * Z.of_nat 8)) with (2 ^ 64) in Hv; change (2 ^ (8 * Z.of_nat 4)) with 4294967296 in Hv; change (2 ^ (8 * Z.of_nat 2)) with 65536 in Hv; change (2 ^ 64) with 18446744073709551616 in *; lia|apply sle_bytes; [lia|exact Hv]]|]). destruct Hin. }
    rewrite R. cbn [bind]. unfold address. rewrite E2, E3. destruct (v mod 2 ^ 64 =? 0) eqn:Z0; [apply Z.eqb_eq in Z0; rewrite Z0; reflexivity|reflexivity].
  - intros H255. unfold size_of. destruct (Z.eqb_spec encoding 255); [congruence|]. cbv zeta. rewrite G. cbn [In fixed] in Hin. repeat (destruct Hin as [Hin|Hin]; [injection Hin as <- <- <-; reflexivity|]). destruct Hin.
Qed.
Print Assumptions C117_fixed.
(** the formats of variable size, and the aligned word *)
Theorem C117_variable : forall encoding base u load l rest, 0 <= encoding < 256 -> digits l -> (length l <= 10)%nat ->
  (encoding mod 16 = 1 -> read_encoded encoding base u load (l ++ rest) = Ok (address encoding base u load (unsigned_value l mod 2 ^ 64), rest)) /\
  (encoding mod 16 = 9 -> read_encoded encoding base u load (l ++ rest) = Ok (address encoding base u load (signed_value l mod 2 ^ 64), rest)).
Proof.
  intros encoding base u load l rest He Hl Hn. destruct (land_parts encoding He) as [E1 [E2 [E3 _]]]. unfold read_encoded. cbv zeta. rewrite E1.
  assert (A : forall x, (if x mod W =? 0 then Ok (x mod W, rest) else Ok (if negb (Z.land encoding 128 =? 0) then load ((x mod W + (if Z.land encoding 112 =? 16 then u else base)) mod W)
    else (x mod W + (if Z.land encoding 112 =? 16 then u else base)) mod W, rest)) = Ok (address encoding base u load (x mod 2 ^ 64), rest)).
  { intros x. unfold address. fold W. rewrite E2, E3. destruct (x mod W =? 0) eqn:Z0; [apply Z.eqb_eq in Z0; rewrite Z0; reflexivity|reflexivity]. }
  split; intros Hf; rewrite Hf; (destruct (Z.eqb_spec encoding 80); [subst; discriminate Hf|]); cbn [Z.eqb Pos.eqb].
  - rewrite C117_uleb by assumption. cbn [bind]. apply A.
  - rewrite sleb_ok by assumption. cbn [bind]. rewrite signed_mod. apply A.
Qed.
Print Assumptions C117_variable.
Theorem C117_aligned : forall base u load pad v rest, length pad = Z.to_nat ((- u) mod 8) -> 0 <= v < 2 ^ 64 ->
  read_encoded 80 base u load (pad ++ bytes 8 v ++ rest) = Ok (v, rest) /\ (u + Z.of_nat (length pad)) mod 8 = 0 /\ (length pad < 8)%nat.
Proof.
  intros base u load pad v rest Hp Hv. assert (M := Z.mod_pos_bound (- u) 8 ltac:(lia)). split; [|split; [|lia]].
  - unfold read_encoded. change (80 =? 80) with true. cbn iota. rewrite <- Hp, skipn_app, skipn_all, Nat.sub_diag. cbn [skipn app]. apply le_bytes. exact Hv.
  - rewrite Hp, Z2Nat.id by lia. rewrite Zplus_mod_idemp_r. replace (u + - u) with 0 by ring. reflexivity.
Qed.
Print Assumptions C117_aligned.
(** omitted values have no size; the formats of variable size and the unknown ones have none to give *)
Theorem C117_size : size_of 255 = Ok 0 /\ forall e, 0 <= e < 255 -> ~ In (e mod 8) [0; 2; 3; 4] -> size_of e = Abort.
Proof.
  split; [reflexivity|]. intros e He Hn. destruct (land_parts e) as [_ [_ [_ E4]]]; [lia|]. unfold size_of. destruct (Z.eqb_spec e 255); [lia|]. cbv zeta. rewrite E4. cbn [In] in Hn.
  repeat match goal with |- context[?x =? ?y] => destruct (Z.eqb_spec x y); [exfalso; apply Hn; auto 6|] end. reflexivity.
Qed.
Print Assumptions C117_size.
Example ex_leb : read_uleb128 [229; 142; 38; 7] = Ok (624485, [7]) /\ read_sleb128 [192; 187; 120; 7] = Ok (-123456, [7]) /\ read_uleb128 [128; 128] = Past /\
  encode_u 10 624485 = [229; 142; 38] /\ encode_s 10 (-123456) = [192; 187; 120] /\ length (encode_u 10 (2 ^ 64 - 1)) = 10%nat /\ length (encode_s 10 (- 2 ^ 63)) = 10%nat /\
  read_sleb128 (encode_s 10 (- 2 ^ 63)) = Ok (- 2 ^ 63, []) /\ read_sleb128 [127] = Ok (-1, []).
Proof. vm_compute. repeat split. Qed.
Example ex_fixed : read_encoded 27 0 4096 (fun a => a) [252; 255; 255; 255; 9] = Ok (4092, [9]) /\ size_of 27 = Ok 4 /\ read_encoded 155 0 4096 (fun a => a * 2) [4; 0; 0; 0] = Ok (8200, []) /\
  read_encoded 3 100 4096 (fun a => a) [0; 0; 0; 0] = Ok (0, []) /\ read_encoded 80 0 4095 (fun a => a) [9; 1; 0; 0; 0; 0; 0; 0; 0] = Ok (1, []).
Proof. vm_compute. repeat split. Qed.
