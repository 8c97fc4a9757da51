(* C83, C84: printing and reading of 128-bit integers. *)

From Coq Require Import List ZArith Bool Lia.
From Verif.Int128Io Require Import Model Spec Proofs.
Import ListNotations.
Local Open Scope Z_scope.

(* -- C83: without manipulators -- *)

(* An unsigned value is printed in decimal. *)
Theorem C83_print_unsigned : forall v, 0 <= v < 2 ^ 128 -> exists t, print_u v = Some t /\ decimal v t.
Proof.
  intros v H. change (2 ^ 128) with two128 in H. exists (dec1 v). split; [apply print_u_ok; exact H|].
  pose proof (dec1_decimal v ltac:(lia)) as D. replace (Z.abs v) with v in D by lia. assert (E : v <? 0 = false) by lia. rewrite E in D. exact D.
Qed.
Print Assumptions C83_print_unsigned.

(* A signed value is printed in decimal, if it is not the least. *)
Theorem C83_print_signed_partial : forall v, - 2 ^ 127 < v < 2 ^ 127 -> exists t, print_s v = Some t /\ decimal v t.
Proof.
  intros v H. change (2 ^ 127) with two127 in H. eexists. split; [apply print_s_ok; exact H|]. apply dec1_decimal. assert (two127 < two128) by reflexivity. lia.
Qed.
Print Assumptions C83_print_signed_partial.

(* The decimal text of a number is unique. *)
Theorem C83_decimal_unique : forall v t t', Z.abs v < 2 ^ 128 -> decimal v t -> decimal v t' -> t = t'.
Proof.
  intros v t t' H (ds & D & ->) (ds' & D' & ->). change (2 ^ 128) with two128 in H.
  rewrite (numeral_digs 10 (Z.abs v) ds), (numeral_digs 10 (Z.abs v) ds') by (try assumption; lia). reflexivity.
Qed.
Print Assumptions C83_decimal_unique.

Lemma decimal_dec1 : forall v t, Z.abs v < two128 -> decimal v t -> t = (if v <? 0 then [Minus] else []) ++ dec1 (Z.abs v).
Proof. intros v t H D. apply (C83_decimal_unique v); [exact H|exact D|apply dec1_decimal; exact H]. Qed.

(* What was printed is read back, after any blanks and before anything that is
   not a digit. *)
Theorem C83_read_back : forall v t n old r, (forall d l, r = Dig d :: l -> ~ 0 <= d <= 9) ->
  decimal v t ->
  (0 <= v < 2 ^ 128 -> read_u old (repeat Sp n ++ t ++ r) = Got v r) /\
  (- 2 ^ 127 <= v < 2 ^ 127 -> read_s old (repeat Sp n ++ t ++ r) = Got v r).
Proof.
  intros v t n old r N D. change (2 ^ 128) with two128. change (2 ^ 127) with two127.
  assert (NT : notdigit r).
  { destruct r as [|[| | | | | |d] r]; try exact I. cbn. specialize (N d r eq_refl). lia. }
  assert (E2 : two128 = 2 * two127) by reflexivity.
  split; intros H; rewrite (decimal_dec1 v t) by (try assumption; lia).
  - assert (v <? 0 = false) as -> by lia. replace (Z.abs v) with v by lia. apply read_plain; assumption.
  - unfold read_s. destruct (Z.ltb_spec v 0).
    + rewrite <- app_assoc. cbn [app]. rewrite read_minus by (try assumption; lia). replace (- Z.abs v) with v by lia.
      replace (v mod two128) with (v + two128) by (rewrite <- (Z.mod_add v 1), Z.mod_small by lia; lia).
      destruct (Z.ltb_spec (v + two128) two127); [lia|]. f_equal. lia.
    + replace (Z.abs v) with v by lia. cbn [app]. rewrite read_plain by (try assumption; lia). destruct (Z.ltb_spec v two127); [reflexivity|lia].
Qed.
Print Assumptions C83_read_back.

(* The least value is not printed: its negation overflows. *)
Theorem C83_print_least_refuted : ~ forall v, - 2 ^ 127 <= v < 2 ^ 127 -> exists t, print_s v = Some t /\ decimal v t.
Proof.
  intros H. destruct (H (- 2 ^ 127)) as (t & E & _); [lia|]. vm_compute in E. discriminate.
Qed.
Print Assumptions C83_print_least_refuted.

(* It should: the least value has a decimal text, and that is read. *)
Example C83_least_ex : exists t, decimal (- 2 ^ 127) t /\ length t = 40%nat /\ read_s 0 (t ++ [Sp]) = Got (- 2 ^ 127) [Sp].
Proof.
  exists (Minus :: dec1 two127). split; [exact (dec1_decimal (- two127) ltac:(reflexivity))|]. split; vm_compute; reflexivity.
Qed.

(* Reading overruns the buffer if there are 40 minus signs or more. *)
Theorem C83_read_smash_refuted : ~ forall old l, read_u old l <> Smash.
Proof. intros H. apply (H 0 (repeat Minus 40)). vm_compute. reflexivity. Qed.
Print Assumptions C83_read_smash_refuted.

(* Exactly then. *)
Theorem C83_read_smash_iff : forall n old m r, (forall l, r <> Minus :: l) ->
  read_u old (repeat Sp n ++ repeat Minus (S m) ++ r) = Smash <-> (40 <= S m)%nat.
Proof.
  intros n old m r N. unfold read_u. rewrite skipsp_app. cbn [repeat app skipsp takem].
  assert (T : forall k, takem (repeat Minus k ++ r) = (k, r)).
  { induction k as [|k IH]; cbn [repeat app takem]; [|rewrite IH; reflexivity]. destruct r as [|[] r]; try reflexivity. destruct (N r eq_refl). }
  rewrite T. cbn [fst snd]. destruct (Nat.leb_spec 40 (S m)).
  - tauto.
  - destruct (taked 39 r) as [[|z zs] l2]; split; intros X; try discriminate; lia.
Qed.
Print Assumptions C83_read_smash_iff.

(* Without a digit, nothing is stored and nobody is told. *)
Theorem C83_read_nothing : forall old n r, (forall d l, r <> Dig d :: l) -> (forall l, r <> Minus :: l) -> (forall l, r <> Sp :: l) ->
  read_u old (repeat Sp n ++ r) = Got old r.
Proof.
  intros old n r A B C. unfold read_u. rewrite skipsp_app. destruct r as [|[| | | | | |d] r]; try reflexivity; [destruct (C r eq_refl)|destruct (B r eq_refl)|destruct (A d r eq_refl)].
Qed.
Print Assumptions C83_read_nothing.

(* With more than 39 digits the value is not that of the text, even if the
   first of them are zeros. *)
Theorem C83_read_zeros_refuted : ~ forall n v t, 0 <= v < 2 ^ 128 -> decimal v t -> read_u 0 (repeat (Dig 0) n ++ t) = Got v [].
Proof.
  intros H. specialize (H 39%nat 7 [Dig 7] ltac:(lia)).
  assert (D : decimal 7 [Dig 7]) by (exact (dec1_decimal 7 ltac:(reflexivity))). specialize (H D). vm_compute in H. discriminate.
Qed.
Print Assumptions C83_read_zeros_refuted.

Example C83_max_ex : print_u (2 ^ 128 - 1) = Some (map Dig
  [3;4;0;2;8;2;3;6;6;9;2;0;9;3;8;4;6;3;4;6;3;3;7;4;6;0;7;4;3;1;7;6;8;2;1;1;4;5;5]).
Proof. vm_compute. reflexivity. Qed.

Example C83_gap_ex : print_s (- (10 ^ 20 + 7)) = Some (Minus :: map Dig [1;0;0;0;0;0;0;0;0;0;0;0;0;0;0;0;0;0;0;0;7]).
Proof. vm_compute. reflexivity. Qed.

(* -- C84: with manipulators -- *)

(* Printing a value in a base, with width, precision, and flags, writes what was
   asked for after the separator that is due; afterwards the stream is as after
   any other item.  Partial: where the code does what it should, see Spec.good.
   lg v stands for ceil(log10(v)) in floating point. *)
Theorem C84_print128_partial : forall lg o f v, in_range (bs f) v -> good lg f v ->
  exists t, shown f v t /\ print128 lg o f v = Some (St (txt o ++ (if son o then [Sepr] else []) ++ t) (dflt o) (dflt o)).
Proof.
  intros lg o f v R G. exists (laid_out f v (digs (base_of (bs f)) (Z.abs v))). split; [|apply print128_ok; assumption].
  exists (digs (base_of (bs f)) (Z.abs v)). split; [|reflexivity]. apply digs_numeral; [apply base2|].
  unfold in_range in R. change (2 ^ 128) with two128 in R. change (2 ^ 127) with two127 in R. assert (two127 < two128) by reflexivity. destruct (bs f); lia.
Qed.
Print Assumptions C84_print128_partial.

(* What was asked for is unique. *)
Theorem C84_shown_unique : forall f v t t', in_range (bs f) v -> shown f v t -> shown f v t' -> t = t'.
Proof.
  intros f v t t' R (ds & D & ->) (ds' & D' & ->).
  assert (H : Z.abs v < two128).
  { unfold in_range in R. change (2 ^ 128) with two128 in R. change (2 ^ 127) with two127 in R. assert (two127 < two128) by reflexivity. destruct (bs f); lia. }
  rewrite (numeral_digs _ (Z.abs v) ds (base2 _) ltac:(lia) D), (numeral_digs _ (Z.abs v) ds' (base2 _) ltac:(lia) D'). reflexivity.
Qed.
Print Assumptions C84_shown_unique.

(* The text is never shorter than the width, nor has it fewer digits than the
   precision; digits are not lost. *)
Theorem C84_width : forall f v t, in_range (bs f) v -> shown f v t -> wd f <= size t.
Proof.
  intros f v t R (ds & D & ->). unfold laid_out. cbv zeta. set (d := many (_ - size ds) (Dig 0) ++ ds).
  set (s := match bs f with Dec => if v <? 0 then _ else _ | _ => [] end). set (p := if nobsdp f then _ else _).
  clearbody s p d. assert (S1 : forall a b, size (a ++ b) = size a + size b) by exact len_app.
  assert (S2 : forall n c, n <= size (many n c)) by (intros n c; change (n <= len (rep n c)); unfold len, rep; rewrite repeat_length; lia).
  remember (wd f - size (s ++ p ++ d)) as n eqn:E. pose proof (S2 n Sp) as X. pose proof (S2 n (Dig 0)) as Y. rewrite !S1 in E.
  destruct (left f); [|destruct (pad0 f && negb (pcf f))]; rewrite !S1; lia.
Qed.
Print Assumptions C84_width.

(* A log10 that is right, and the one there is: ceil(log10(10^n)) = n. *)
Definition lg0 (v : Z) : Z := len (digs 10 v).
Definition lg1 (v : Z) : Z := len (digs 10 (v - 1)).

Definition full (lg : Z -> Z) : Prop := forall o f v, in_range (bs f) v -> 0 <= wd f -> 0 <= pc f -> neg f = false ->
  exists t, shown f v t /\ print128 lg o f v = Some (St (txt o ++ (if son o then [Sepr] else []) ++ t) (dflt o) (dflt o)).

Ltac refute f v :=
  intros [H|H]; destruct (H (St [] false false) f v) as (t & (ds & D & ->) & E);
    [cbv; intuition congruence|cbv; congruence|cbv; congruence|reflexivity| |cbv; intuition congruence|cbv; congruence|cbv; congruence|reflexivity| ];
    (apply numeral_digs in D; [|apply base2|cbv; intuition congruence]; rewrite D in E; vm_compute in E; discriminate).

(* 2^64 in base 16 or 2 is 0. *)
Theorem C84_hex_refuted : ~ (full lg0 \/ full lg1).
Proof. refute (F 1 0 Hex false false false false false false) (2 ^ 64). Qed.
Print Assumptions C84_hex_refuted.

Example C84_hex_ex :
  print128 lg0 (St [] false false) (F 1 0 Hex false false false false false false) (2 ^ 64) = Some (St [Dig 0; Lx; Dig 0] false false) /\
  print128 lg0 (St [] false false) (F 1 0 Bin false false false false false false) (2 ^ 64) = Some (St [Dig 0; Lb; Dig 0] false false) /\
  print128 lg0 (St [] false false) (F 1 0 Hex false false false false false false) (2 ^ 64 + 1) =
    Some (St (Dig 0 :: Lx :: Dig 1 :: repeat (Dig 0) 15 ++ [Dig 1]) false false).
Proof. vm_compute. auto. Qed.

(* 10^19 as a signed number is -8446744073709551616. *)
Theorem C84_signed_refuted : ~ (full lg0 \/ full lg1).
Proof. refute (F 1 0 Dec false false false false false false) (10 ^ 19). Qed.
Print Assumptions C84_signed_refuted.

Example C84_signed_ex :
  print128 lg0 (St [] false false) (F 1 0 Dec false false false false false false) (10 ^ 19) =
    Some (St (Minus :: map Dig [8;4;4;6;7;4;4;0;7;3;7;0;9;5;5;1;6;1;6]) false false) /\
  print128 lg0 (St [] false false) (F 1 0 Dec false false false false false false) (2 * 10 ^ 19 - 1) =
    Some (St (Dig 1 :: Minus :: map Dig [8;4;4;6;7;4;4;0;7;3;7;0;9;5;5;1;6;1;7]) false false).
Proof. vm_compute. auto. Qed.

(* Left in a field, 10^19 + 1 is followed by one blank too many. *)
Theorem C84_left_refuted : ~ full lg1.
Proof.
  intros H. destruct (H (St [] false false) (F 25 0 Uns false true false false false false) (10 ^ 19 + 1)) as (t & (ds & D & ->) & E);
    [cbv; intuition congruence|cbv; congruence|cbv; congruence|reflexivity|].
  apply numeral_digs in D; [|apply base2|cbv; intuition congruence]. rewrite D in E. vm_compute in E. discriminate.
Qed.
Print Assumptions C84_left_refuted.

(* With a precision that is less than the low digits, padding is with zeros. *)
Theorem C84_precision_refuted : ~ (full lg0 \/ full lg1).
Proof. refute (F 30 3 Uns true false false false true false) (10 ^ 19 + 1). Qed.
Print Assumptions C84_precision_refuted.

(* With a precision less than the bits, a binary number is in too wide a field. *)
Theorem C84_binary_refuted : ~ (full lg0 \/ full lg1).
Proof. refute (F 10 1 Bin true false true false false false) 255. Qed.
Print Assumptions C84_binary_refuted.

(* 0 in base 16 is split: 0x, blanks, 0. *)
Theorem C84_zero_refuted : ~ (full lg0 \/ full lg1).
Proof. refute (F 6 0 Hex false false false false false false) 0. Qed.
Print Assumptions C84_zero_refuted.

Example C84_zero_ex :
  print128 lg0 (St [] false false) (F 6 0 Hex false false false false false false) 0 = Some (St [Dig 0; Lx; Sp; Sp; Sp; Dig 0] false false).
Proof. vm_compute. reflexivity. Qed.

(* The theorem applies, with three parts and left in a field, after a separator. *)
Example C84_left_ex : good lg1 (F 45 41 Uns true true false false false false) (2 ^ 128 - 1) /\
  print128 lg1 (St [Dig 1] true true) (F 45 41 Uns true true false false false false) (2 ^ 128 - 1) =
    Some (St (Dig 1 :: Sepr :: map Dig [0;0;3;4;0;2;8;2;3;6;6;9;2;0;9;3;8;4;6;3;4;6;3;3;7;4;6;0;7;4;3;1;7;6;8;2;1;1;4;5;5] ++ repeat Sp 4) true true).
Proof. split; [|vm_compute; reflexivity]. vm_compute. intuition congruence. Qed.

Example C84_signed_good_ex : good lg1 (F 25 0 Dec false false false true true false) (- (12 * 10 ^ 19 + 34)) /\
  print128 lg1 (St [] false true) (F 25 0 Dec false false false true true false) (- (12 * 10 ^ 19 + 34)) =
    Some (St (Minus :: map Dig [0;0;0;1;2;0;0;0;0;0;0;0;0;0;0;0;0;0;0;0;0;0;3;4]) true true).
Proof. split; [|vm_compute; reflexivity]. unfold good, small_parts. cbn [wd pc bs pcf left pad0 neg]. vm_compute. intuition congruence. Qed.
(** The least value is excluded by in_range: its negation overflows, whatever the format *)
Theorem C84_least_refuted : forall lg o f, bs f = Dec -> print128 lg o f (- 2 ^ 127) = None.
Proof. intros lg o f E. unfold print128. rewrite E. change (2 ^ 127) with two127. now rewrite Z.eqb_refl. Qed.
Print Assumptions C84_least_refuted.
