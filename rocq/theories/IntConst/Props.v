(* C75: the value of an integer literal.  C76: the type of an integer literal. *)
From Coq Require Import ZArith Bool Ascii String List Lia ZifyBool.
From Verif Require Import IntConst.Model IntConst.Spec IntConst.Proofs IntConst.Values IntConst.Wide.
Import ListNotations.
Open Scope Z_scope.

Local Notation length := List.length.

(* ---- helpers for the examples ---- *)

Lemma den_compute b ds n : 0 < b <= 16 ->
  Forall (fun c => exists d, stands c d /\ d < b) ds -> ds <> [] ->
  scan_digits b ds None = Some n -> denotes b ds n.
Proof.
  intros Hb F N E. destruct (den_check b ds) as (m & D); [lia|auto|].
  now rewrite (den_scan b ds m n ltac:(lia) D N E) in D.
Qed.

Ltac all_stand :=
  cbn [txt list_ascii_of_string base];
  repeat (apply Forall_cons;
    [first [ exists 0; split; [split; [lia|left; reflexivity]|lia]
           | exists 1; split; [split; [lia|left; reflexivity]|lia]
           | exists 2; split; [split; [lia|left; reflexivity]|lia]
           | exists 3; split; [split; [lia|left; reflexivity]|lia]
           | exists 4; split; [split; [lia|left; reflexivity]|lia]
           | exists 5; split; [split; [lia|left; reflexivity]|lia]
           | exists 6; split; [split; [lia|left; reflexivity]|lia]
           | exists 7; split; [split; [lia|left; reflexivity]|lia]
           | exists 8; split; [split; [lia|left; reflexivity]|lia]
           | exists 9; split; [split; [lia|left; reflexivity]|lia]
           | exists 10; split; [split; [lia|left; reflexivity]|lia]
           | exists 11; split; [split; [lia|left; reflexivity]|lia]
           | exists 12; split; [split; [lia|left; reflexivity]|lia]
           | exists 13; split; [split; [lia|left; reflexivity]|lia]
           | exists 14; split; [split; [lia|left; reflexivity]|lia]
           | exists 15; split; [split; [lia|left; reflexivity]|lia] ]|]); apply Forall_nil.

(* a literal written out: prefix and suffix are given *)
Ltac is_literal p u :=
  exists (txt p), (txt u); split; [reflexivity|]; split; [cbn; tauto|]; split; [cbn; tauto|];
  split; [apply den_compute; [cbn; lia|all_stand|discriminate|reflexivity]|];
  split; [intros _; discriminate|intros _ ds' E; discriminate E].

(* ---- C75: the value ---- *)

(* A hexadecimal, octal or decimal literal below 2^64, whatever its suffix, is taken for the number
   written. *)
Theorem C75_value r ds su s n :
  literal r ds su s n -> r <> Bin -> len_of su <> L128 -> n < 2 ^ 64 ->
  exists e, build_constantInteger s = Ok e /\ value_of e = n.
Proof.
  intros L Hr Hl Hn.
  destruct (list_eq_dec ascii_dec s ["0"%char]) as [E0|N0].
  { subst s. apply zero_literal in L as (_ & _ & _ & ->). exists Zero. split; reflexivity. }
  destruct (list_eq_dec ascii_dec s ["1"%char]) as [E1|N1].
  { subst s. apply one_literal in L as (_ & _ & _ & ->). exists One. split; reflexivity. }
  destruct (build64 r ds su s n L Hr Hl N0 N1) as (e & _ & _ & B & V & _).
  exists e. split; auto. rewrite V. now apply sat_id.
Qed.
Print Assumptions C75_value.

Example C75_value_ex :
  (exists s, literal Hex (txt "fFff0000") (After Lh) s 4294901760 /\ s = txt "0xfFff0000hu") /\
  build_constantInteger (txt "0xfFff0000hu") =
    Ok (CastK ShortUnsignedInt (Const ShortUnsignedInt (txt "0xfFff0000u") 4294901760)).
Proof.
  split; [|reflexivity]. exists (txt "0xfFff0000hu"). split; [|reflexivity].
  exists (txt "0x"), (txt "hu"). split; [reflexivity|]. split; [cbn; tauto|]. split; [cbn; tauto|].
  split.
  - apply den_compute; [cbn; lia| |discriminate|reflexivity].
    assert (F : stands "F" 15) by (split; [lia|right; reflexivity]).
    repeat (apply Forall_cons; [first
      [ exists 15; split; [split; [lia|first [left; reflexivity | right; reflexivity]]|cbn; lia]
      | exists 0; split; [split; [lia|left; reflexivity]|cbn; lia] ]|]). apply Forall_nil.
  - split; [intros _; discriminate|intros E; discriminate E].
Qed.

(* A larger one is silently taken for 2^64 - 1. *)
Theorem C75_too_large_refuted r ds su s n :
  literal r ds su s n -> r <> Bin -> len_of su <> L128 -> 2 ^ 64 <= n ->
  exists e, build_constantInteger s = Ok e /\ value_of e = 2 ^ 64 - 1 /\ value_of e <> n.
Proof.
  intros L Hr Hl Hn.
  assert (N0 : s <> ["0"%char]) by (intros ->; apply zero_literal in L as (_ & _ & _ & ->); lia).
  assert (N1 : s <> ["1"%char]) by (intros ->; apply one_literal in L as (_ & _ & _ & ->); lia).
  destruct (build64 r ds su s n L Hr Hl N0 N1) as (e & _ & _ & B & V & _).
  exists e. split; auto. rewrite V. unfold sat, ULONG_MAX. lia.
Qed.
Print Assumptions C75_too_large_refuted.

Example C75_too_large_ex :
  literal Dec (txt "18446744073709551616") (Plain Nolen) (txt "18446744073709551616") (2 ^ 64) /\
  build_constantInteger (txt "18446744073709551616") =
    Ok (Const LongUnsignedInt (txt "18446744073709551616") (2 ^ 64 - 1)).
Proof. split; [is_literal ""%string ""%string|reflexivity]. Qed.

(* The text handed to the C compiler is a C literal for the same number, in the same radix. *)
Theorem C75_text r ds su s n :
  literal r ds su s n -> len_of su <> L128 -> (r = Bin -> n < 2 ^ 64) ->
  exists e t su', build_constantInteger s = Ok e /\ text_of e = Some t /\
    literal r ds su' t n /\ c_suffix su' /\ (c_suffix su -> su <> After Ll -> t = s).
Proof.
  intros L Hl Hn.
  destruct (list_eq_dec ascii_dec s ["0"%char]) as [E0|N0].
  { subst s. exists Zero, (txt "0"), su. repeat (split; auto).
    apply zero_literal in L as (_ & _ & -> & _). cbn. auto. }
  destruct (list_eq_dec ascii_dec s ["1"%char]) as [E1|N1].
  { subst s. exists One, (txt "1"), su. repeat (split; auto).
    apply one_literal in L as (_ & _ & -> & _). cbn. auto. }
  assert (exists e pre rest, build_constantInteger s = Ok e /\ text_of e = Some (pre ++ ds ++ rest) /\
    In pre (prefixes r) /\ In rest (suffix_texts (sfx_rest su)) /\
    (c_suffix su -> su <> After Ll -> s = pre ++ ds ++ rest)) as (e & pre & rest & B & T & I & Ir & Es).
  { destruct r.
    - pose proof L as L'. destruct (build_ok Bin ds su s n L N0 N1) as (pre & rest & I & Ir & Es & B).
      destruct L as (_ & _ & _ & _ & _ & D & N & _).
      assert (St := rest_stop _ _ (rest_c su) Ir). assert (Nn := rest_nonul _ _ (rest_c su) Ir).
      cbn [read after] in B. unfold bin_value in B.
      replace (sfx_type su =? 5) with false in B
        by (symmetry; destruct su as [[]|[]|[]| |]; cbn in *; congruence).
      cbn [andb] in B.
      assert (exists v, scanbin (pre ++ ds ++ rest) = Some v) as (v & Hs).
      { cbn in I. repeat (destruct I as [I|I]; [subst pre|]); try contradiction;
          cbn [app]; eexists; apply (scanbin_ok _ _ ds n rest); auto; apply N; discriminate. }
      rewrite Hs in B. cbn [need] in B.
      destruct (finish_ok Bin su (single (pre ++ ds ++ rest) v)) as (e & E & _ & V & _).
      cbn [after] in B. rewrite E in B. destruct (V Hl) as (V1 & V2). exists e, pre, rest. auto.
    - destruct (build64 Oct ds su s n L ltac:(discriminate) Hl N0 N1) as (e & pre & rest & B & _ & T & I & Ir & Es & _).
      exists e, pre, rest. auto.
    - destruct (build64 Dec ds su s n L ltac:(discriminate) Hl N0 N1) as (e & pre & rest & B & _ & T & I & Ir & Es & _).
      exists e, pre, rest. auto.
    - destruct (build64 Hex ds su s n L ltac:(discriminate) Hl N0 N1) as (e & pre & rest & B & _ & T & I & Ir & Es & _).
      exists e, pre, rest. auto. }
  exists e, (pre ++ ds ++ rest), (sfx_rest su). split; [auto|]. split; [auto|].
  split. { destruct L as (_ & _ & _ & _ & _ & D & N & Z). exists pre, rest. auto 10. }
  split; [apply rest_c|]. intros C A. symmetry. auto.
Qed.
Print Assumptions C75_text.

Example C75_text_ex :
  build_constantInteger (txt "077l16") = Ok (CastN "int16_t" (Const ShortSignedInt (txt "077") 63)) /\
  build_constantInteger (txt "12UL") = Ok (Const LongUnsignedInt (txt "12UL") 12).
Proof. split; reflexivity. Qed.

(* Binary literals: exactly which number is taken.  The last digits, up to two, are not read. *)
Theorem C75_binary_partial ds su s n :
  literal Bin ds su s n -> len_of su <> L128 -> n < 2 ^ 64 ->
  exists e, build_constantInteger s = Ok e /\
    value_of e = n / 2 ^ Z.of_nat (unread (length ds) su).
Proof.
  intros L Hl Hn. pose proof L as (_ & _ & _ & _ & _ & _ & N & _).
  assert (Hd : ds <> []) by (apply N; discriminate).
  destruct (bin64 ds su s n L Hl Hn) as (e & rest & B & Ir & V & _). exists e. split; auto. rewrite V.
  f_equal. f_equal. f_equal. unfold bin_read, unread.
  destruct ds as [|c ds]; [congruence|]. set (k := length (c :: ds)) in *. assert (1 <= k)%nat by (cbn in k; lia).
  clearbody k.
  destruct su as [[]|[]|[]| |]; cbn in Hl; try congruence; cbn in Ir;
    repeat (destruct Ir as [Ir|Ir]; [subst rest|]); try contradiction; cbn [List.length];
    rewrite ?Nat.add_0_r;
    repeat match goal with |- context [Nat.leb ?a ?b] => destruct (Nat.leb_spec a b) end; lia.
Qed.
Print Assumptions C75_binary_partial.

Example C75_binary_ex :
  unread 4 (Plain Lll) = 0%nat /\ unread 2 (Plain Nolen) = 0%nat /\ unread 4 (Plain Nolen) = 2%nat /\
  build_constantInteger (txt "0b1011LL") = Ok (Const LongLongSignedInt (txt "0b1011LL") 11).
Proof. repeat split. Qed.

(* 0b101 is taken for 1, not 5. *)
Theorem C75_binary_refuted :
  exists ds s n e, literal Bin ds (Plain Nolen) s n /\ n < 2 ^ 64 /\
    build_constantInteger s = Ok e /\ value_of e <> n.
Proof.
  exists (txt "101"), (txt "0b101"), 5, (Const SignedInt (txt "0b101") 1).
  split; [is_literal "0b"%string ""%string|]. repeat split; cbn; lia.
Qed.
Print Assumptions C75_binary_refuted.

(* 128-bit literals denote the number written as long as their lower 64 bits are not all zero, or they
   are below 2^64. *)
Theorem C75_hex128_partial ds su s n :
  literal Hex ds su s n -> len_of su = L128 -> (length ds <= 32)%nat ->
  n < 2 ^ 64 \/ n mod 2 ^ 64 <> 0 ->
  exists e, build_constantInteger s = Ok e /\ value_of e = n.
Proof. apply hex128. Qed.
Print Assumptions C75_hex128_partial.

Theorem C75_decimal128_partial ds su s n :
  literal Dec ds su s n -> len_of su = L128 -> (length ds <= 39)%nat -> n < 2 ^ 127 ->
  n < 2 ^ 64 \/ n mod 2 ^ 64 <> 0 ->
  exists e, build_constantInteger s = Ok e /\ value_of e = n.
Proof. apply dec128. Qed.
Print Assumptions C75_decimal128_partial.

Theorem C75_octal128_partial ds su s n :
  literal Oct ds su s n -> len_of su = L128 -> (length ds <= 43)%nat -> n < 2 ^ 127 ->
  n < 2 ^ 64 \/ n mod 2 ^ 64 <> 0 ->
  exists e, build_constantInteger s = Ok e /\ value_of e = n.
Proof. apply oct128. Qed.
Print Assumptions C75_octal128_partial.

(* A decimal literal of 39 digits that is out of range is rejected. *)
Theorem C75_decimal128_too_large ds su s n :
  literal Dec ds su s n -> len_of su = L128 -> length ds = 39%nat ->
  2 ^ (if unsigned su then 128 else 127) <= n -> build_constantInteger s = Error.
Proof. apply dec128_large. Qed.
Print Assumptions C75_decimal128_too_large.

Example C75_wide_ex :
  build_constantInteger (txt "0x123456789abcdef0fedcba9876543210L128") =
    Ok (Compound (Const LongLongSignedInt (txt "0x123456789abcdef0") 1311768467463790320)
                 (Const LongLongSignedInt (txt "0xfedcba9876543210") 18364758544493064720)) /\
  build_constantInteger (txt "170141183460469231731687303715884105727L128") =
    Ok (Compound (Const LongLongSignedInt (txt "0x7fffffffffffffff") (2 ^ 63 - 1))
                 (Const LongLongSignedInt (txt "0xffffffffffffffff") (2 ^ 64 - 1))) /\
  build_constantInteger (txt "170141183460469231731687303715884105728L128") = Error /\
  build_constantInteger (txt "02000000000000000000001L128") =
    Ok (Compound (Const LongLongSignedInt (txt "0x1") 1) (Const LongLongSignedInt (txt "0x1") 1)).
Proof. repeat split; vm_compute; reflexivity. Qed.

(* 2^64 as a 128-bit literal is taken for 1. *)
Theorem C75_lower_half_zero_refuted :
  exists ds s n e, literal Hex ds (Plain L128) s n /\ n < 2 ^ 127 /\
    build_constantInteger s = Ok e /\ value_of e <> n.
Proof.
  exists (txt "10000000000000000"), (txt "0x10000000000000000L128"), (2 ^ 64),
    (Compound (Const LongLongSignedInt (txt "0x0000000000000000") 0) (Const LongLongSignedInt (txt "0x1") 1)).
  split; [is_literal "0x"%string "L128"%string|]. repeat split; cbn; lia.
Qed.
Print Assumptions C75_lower_half_zero_refuted.

(* 2^127 + 1 in octal, as an unsigned 128-bit literal, is taken for another number. *)
Theorem C75_octal128_refuted :
  exists ds s n e, literal Oct ds (Before L128) s n /\ n < 2 ^ 128 /\ length ds = 43%nat /\
    build_constantInteger s = Ok e /\ value_of e <> n.
Proof.
  exists (txt "2000000000000000000000000000000000000000001"),
    (txt "02000000000000000000000000000000000000000001uL128"), (2 ^ 127 + 1).
  eexists. split; [is_literal "0"%string "uL128"%string|]. split; [lia|]. split; [reflexivity|].
  split; [vm_compute; reflexivity|]. vm_compute. discriminate.
Qed.
Print Assumptions C75_octal128_refuted.

(* 2^128 in octal does not fit but is not rejected. *)
Theorem C75_octal128_too_large_refuted :
  exists ds s e, literal Oct ds (Before L128) s (2 ^ 128) /\ build_constantInteger s = Ok e.
Proof.
  exists (txt "4000000000000000000000000000000000000000000"),
    (txt "04000000000000000000000000000000000000000000uL128").
  eexists. split; [is_literal "0"%string "uL128"%string|]. vm_compute. reflexivity.
Qed.
Print Assumptions C75_octal128_too_large_refuted.

(* 10^39 does not fit but is not rejected: a signed multiplication overflows.  So it does for the
   unsigned literal 2^127, which fits. *)
Theorem C75_decimal128_refuted :
  (exists ds s, literal Dec ds (Plain L128) s (10 ^ 39) /\ build_constantInteger s = Undef) /\
  (exists ds s, literal Dec ds (Before L128) s (2 ^ 127) /\ build_constantInteger s = Undef).
Proof.
  split.
  - exists (txt "1000000000000000000000000000000000000000"), (txt "1000000000000000000000000000000000000000L128").
    split; [is_literal ""%string "L128"%string|]. vm_compute. reflexivity.
  - exists (txt "170141183460469231731687303715884105728"), (txt "170141183460469231731687303715884105728uL128").
    split; [is_literal ""%string "uL128"%string|]. vm_compute. reflexivity.
Qed.
Print Assumptions C75_decimal128_refuted.

(* The lower 64 digits of a long binary literal lose two digits as well. *)
Theorem C75_binary128_refuted :
  exists ds s n e, literal Bin ds (Plain L128) s n /\ n < 2 ^ 127 /\
    build_constantInteger s = Ok e /\ value_of e <> n.
Proof.
  exists (txt "10000000000000000000000000000000000000000000000000000000000000111"),
    (txt "0b10000000000000000000000000000000000000000000000000000000000000111L128"), (2 ^ 64 + 7).
  eexists. split; [is_literal "0b"%string "L128"%string|]. split; [lia|].
  split; [vm_compute; reflexivity|]. vm_compute. discriminate.
Qed.
Print Assumptions C75_binary128_refuted.

(* ---- C76: the type ---- *)

(* The literals 0 and 1, and only they, have types of their own. *)
Theorem C76_zero_one s e : build_constantInteger s = Ok e ->
  (e = Zero <-> s = txt "0") /\ (e = One <-> s = txt "1").
Proof.
  unfold build_constantInteger.
  destruct (list_eq_dec ascii_dec s ["0"%char]) as [->|N0].
  { intros E. injection E as <-. split; split; try reflexivity; discriminate. }
  destruct (list_eq_dec ascii_dec s ["1"%char]) as [->|N1].
  { intros E. injection E as <-. split; split; try reflexivity; discriminate. }
  intros E.
  assert (e <> Zero /\ e <> One).
  { destruct (suffixes s) as [[[un ty] lty] s'].
    match type of E with match ?X with _ => _ end = _ => destruct X; try discriminate E end.
    unfold finish in E.
    destruct (if ty =? -1 then _ else _) as [ty' un'].
    destruct (negb ((0 <=? ty') && (ty' <=? 6))); [discriminate|]. injection E as <-.
    destruct (un' && (ty' <? 2)); [split; discriminate|].
    destruct (negb (lty =? -1)); [|split; discriminate].
    destruct (lty =? 6); [destruct (p_v2 a =? 0); split; discriminate|].
    destruct (lty =? 5); split; discriminate. }
  split; split; tauto.
Qed.
Print Assumptions C76_zero_one.

(* Other literals with a C suffix: the type is the one of C exactly when they are not in the departures
   of [departs]. *)
Theorem C76_type_partial r ds su s n :
  literal r ds su s n -> r <> Bin -> c_suffix su -> n < 2 ^ 64 -> s <> txt "0" -> s <> txt "1" ->
  exists e, build_constantInteger s = Ok e /\ (type_of e = c_type r su n <-> ~ departs r su n).
Proof.
  intros L Hr C Hn N0 N1.
  assert (Hl : len_of su <> L128).
  { destruct su as [[]|[]|[]| |]; cbn in C |- *; intuition discriminate. }
  destruct (build64 r ds su s n L Hr Hl N0 N1) as (e & pre & rest & B & _ & _ & _ & _ & _ & K).
  exists e. split; auto. rewrite (K C). clear K. rewrite sat_id by auto.
  assert (Hn0 : 0 <= n).
  { destruct L as (_ & _ & _ & _ & _ & D & _). apply den_range in D; [lia|destruct r; cbn; lia]. }
  unfold final, c_type, candidates, departs.
  destruct su as [[]|[]|[]| |]; cbn in C; try (exfalso; intuition discriminate); try contradiction;
    cbn [sfx_type type_of_len unsigned Z.eqb Pos.eqb find fst snd kind_of];
    unfold valueToType, INT_MAX, UINT_MAX, LONG_MAX, ULONG_MAX, LLONG_MAX;
    (destruct r; [congruence| | |]); cbn [is_dec negb find ctype_max andb orb];
    repeat match goal with
    | |- context [if (?a <=? ?b) && ?c then _ else _] => destruct (Z.leb_spec a b); cbn [andb]
    | |- context [if ?a <=? ?b then _ else _] => destruct (Z.leb_spec a b)
    end; try (exfalso; lia); cbn [type_of kind_of fst snd Z.eqb Pos.eqb];
    (split; [intros E; try discriminate E; try (injection E as E; try discriminate E); first [lia | intros Q; destruct Q; first [lia|congruence|tauto]]
            |intros E; first [reflexivity | exfalso; apply E; first [lia | split; first [reflexivity|lia|discriminate] | left; lia | right; split; [discriminate|lia]]]]).
Qed.
Print Assumptions C76_type_partial.

Example C76_type_ex :
  build_constantInteger (txt "2147483648") = Ok (Const LongSignedInt (txt "2147483648") 2147483648) /\
  build_constantInteger (txt "0x80000000") = Ok (Const UnsignedInt (txt "0x80000000") 2147483648) /\
  c_type Dec (Plain Nolen) 2147483648 = Some CLong /\ c_type Hex (Plain Nolen) 2147483648 = Some CUInt.
Proof. repeat split. Qed.

(* 5lu is an unsigned int instead of an unsigned long int, and is even handed on as 5u; 5ul is right. *)
Theorem C76_long_unsigned_refuted :
  exists ds s s' n e e', literal Dec ds (After Ll) s n /\ literal Dec ds (Before Ll) s' n /\
    build_constantInteger s = Ok e /\ build_constantInteger s' = Ok e' /\
    type_of e' = c_type Dec (Before Ll) n /\ type_of e <> c_type Dec (After Ll) n /\
    text_of e = Some (txt "5u").
Proof.
  exists (txt "5"), (txt "5lu"), (txt "5ul"), 5, (Const UnsignedInt (txt "5u") 5), (Const LongUnsignedInt (txt "5ul") 5).
  split; [is_literal ""%string "lu"%string|]. split; [is_literal ""%string "ul"%string|]. repeat split. discriminate.
Qed.
Print Assumptions C76_long_unsigned_refuted.

(* 3000000000u is an unsigned long int to the translator but an unsigned int to the C compiler, which is
   given the same text. *)
Theorem C76_unsigned_decimal_refuted :
  exists ds su s n e, literal Dec ds su s n /\ build_constantInteger s = Ok e /\
    text_of e = Some s /\ type_of e = Some CULong /\ c_type Dec su n = Some CUInt.
Proof.
  exists (txt "3000000000"), (Before Nolen), (txt "3000000000u"), 3000000000, (Const LongUnsignedInt (txt "3000000000u") 3000000000).
  split; [is_literal ""%string "u"%string|]. repeat split.
Qed.
Print Assumptions C76_unsigned_decimal_refuted.

(* 0xffffffffffffffffL is given the type long int, which cannot hold it. *)
Theorem C76_long_refuted :
  exists ds s n e t, literal Hex ds (Plain Ll) s n /\ build_constantInteger s = Ok e /\
    type_of e = Some t /\ ctype_max t < n /\ c_type Hex (Plain Ll) n = Some CULong.
Proof.
  exists (txt "ffffffffffffffff"), (txt "0xffffffffffffffffL"), (2 ^ 64 - 1),
    (Const LongSignedInt (txt "0xffffffffffffffffL") (2 ^ 64 - 1)), CLong.
  split; [is_literal "0x"%string "L"%string|]. repeat split.
Qed.
Print Assumptions C76_long_refuted.

(* A binary literal of 32 ones is an int, since only 30 digits are read. *)
Theorem C76_binary_refuted :
  exists ds s n e, literal Bin ds (Plain Nolen) s n /\ build_constantInteger s = Ok e /\
    type_of e = Some CInt /\ c_type Bin (Plain Nolen) n = Some CUInt.
Proof.
  exists (txt "11111111111111111111111111111111"), (txt "0b11111111111111111111111111111111"), (2 ^ 32 - 1),
    (Const SignedInt (txt "0b11111111111111111111111111111111") (2 ^ 30 - 1)).
  split; [is_literal "0b"%string ""%string|]. repeat split.
Qed.
Print Assumptions C76_binary_refuted.

(* Lengths of Cforall: the expression has the type asked for, whatever the number. *)
Definition asked (su : suffix) (k : kind) (name : option string) : Prop :=
  match su with
  | Plain Lhh => k = SignedChar /\ name = None
  | Before Lhh | After Lhh => k = UnsignedChar /\ name = None
  | Plain Lh => k = ShortSignedInt /\ name = None
  | Before Lh | After Lh => k = ShortUnsignedInt /\ name = None
  | Plain Ln => k = SignedInt /\ name = None
  | Before Ln | After Ln => k = UnsignedInt /\ name = None
  | Plain L8 => k = SignedChar /\ name = Some "int8_t"%string
  | Before L8 | After L8 => k = UnsignedChar /\ name = None
  | Plain L16 => k = ShortSignedInt /\ name = Some "int16_t"%string
  | Before L16 | After L16 => k = ShortUnsignedInt /\ name = None
  | Plain L32 => k = SignedInt /\ name = Some "int32_t"%string
  | Before L32 | After L32 => k = UnsignedInt /\ name = Some "uint32_t"%string
  | Plain L64 => k = LongSignedInt /\ name = Some "int64_t"%string
  | Before L64 | After L64 => k = LongUnsignedInt /\ name = Some "uint64_t"%string
  | Size => name = Some "size_t"%string
  | _ => False
  end.

Theorem C76_length_asked r ds su s n : literal r ds su s n -> (r = Bin -> n < 2 ^ 64) ->
  (su = Size \/ exists l, (su = Plain l \/ su = Before l \/ su = After l) /\
                          In l [Lhh; Lh; Ln; L8; L16; L32; L64]) ->
  exists e, build_constantInteger s = Ok e /\
    exists k name, asked su k name /\
      match e with
      | Const k' _ _ => k' = k /\ name = None
      | CastK k1 (Const k' _ _) => k' = k /\ k1 = k /\ name = None
      | CastN nm (Const k' _ _) => k' = k /\ name = Some nm
      | _ => False
      end.
Proof.
  intros L Hn Hsu.
  assert (Hl : len_of su <> L128).
  { destruct Hsu as [->|(l & [->|[->| ->]] & I)]; cbn; [discriminate| | |];
      cbn in I; intros ->; intuition discriminate. }
  assert (N0 : s <> ["0"%char]).
  { intros ->. apply zero_literal in L as (_ & _ & -> & _).
    destruct Hsu as [Q|(l & [Q|[Q|Q]] & I)]; try discriminate Q. injection Q as <-. cbn in I. intuition discriminate. }
  assert (N1 : s <> ["1"%char]).
  { intros ->. apply one_literal in L as (_ & _ & -> & _).
    destruct Hsu as [Q|(l & [Q|[Q|Q]] & I)]; try discriminate Q. injection Q as <-. cbn in I. intuition discriminate. }
  assert (exists p, build_constantInteger s = finish (unsigned su) (sfx_type su) (sfx_ltype su) (is_dec r) p) as (p & B).
  { destruct (build_ok r ds su s n L N0 N1) as (pre & rest & I & Ir & _ & B).
    destruct L as (_ & _ & _ & _ & _ & D & N & _).
    destruct r.
    - cbn [read after] in B. unfold bin_value in B.
      replace (sfx_type su =? 5) with false in B
        by (symmetry; destruct su as [[]|[]|[]| |]; cbn in *; congruence).
      cbn [andb] in B.
      assert (St := rest_stop _ _ (rest_c su) Ir). assert (Nn := rest_nonul _ _ (rest_c su) Ir).
      assert (exists v, scanbin (pre ++ ds ++ rest) = Some v) as (v & Hs).
      { cbn in I. repeat (destruct I as [I|I]; [subst pre|]); try contradiction;
          cbn [app]; eexists; apply (scanbin_ok _ _ ds n rest); auto; apply N; discriminate. }
      rewrite Hs in B. cbn [need after] in B. eauto.
    - rewrite (read64 Oct pre ds n rest (sfx_rest su)) in B; auto using rest_c, type_small; try discriminate. cbn [after] in B. eauto.
    - rewrite (read64 Dec pre ds n rest (sfx_rest su)) in B; auto using rest_c, type_small; try discriminate. cbn [after] in B. eauto.
    - rewrite (read64 Hex pre ds n rest (sfx_rest su)) in B; auto using rest_c, type_small; try discriminate. cbn [after] in B. eauto. }
  rewrite B. unfold finish.
  destruct su as [[]|[]|[]| |]; cbn in Hl;
    try (exfalso; destruct Hsu as [Q|(l & [Q|[Q|Q]] & I)]; try discriminate Q; injection Q as <-; cbn in I; intuition discriminate);
    try (exfalso; destruct Hsu as [Q|(l & [Q|[Q|Q]] & I)]; discriminate Q);
    (eexists; split; [reflexivity|]); cbn; eexists; eexists; (split; [repeat split; reflexivity|repeat split; reflexivity]).
Qed.
Print Assumptions C76_length_asked.

Example C76_length_ex :
  build_constantInteger (txt "0XffL8") = Ok (CastN "int8_t" (Const SignedChar (txt "0Xff") 255)) /\
  build_constantInteger (txt "7z") = Ok (CastN "size_t" (Const UnsignedInt (txt "7") 7)) /\
  build_constantInteger (txt "7p") = Ok (Intptr (CastN "uintptr_t" (Const SignedInt (txt "7") 7))).
Proof. repeat split. Qed.
