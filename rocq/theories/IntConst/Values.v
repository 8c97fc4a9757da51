From Coq Require Import ZArith Bool Ascii String List Lia ZifyBool.
From Verif Require Import IntConst.Model IntConst.Spec IntConst.Proofs.
Import ListNotations.
Open Scope Z_scope.

Local Notation length := List.length.

(* ---- the body of a literal ---- *)

Lemma den_plain b ds n : denotes b ds n -> Forall (fun c => plain c = true) ds.
Proof.
  intros H. apply den_stands in H. eapply Forall_impl; [|exact H].
  intros c (d & S & _). now apply stands_plain with d.
Qed.

Lemma pre_plain r pre : In pre (prefixes r) -> Forall (fun c => plain c = true) pre.
Proof.
  destruct r; cbn; intros I; repeat (destruct I as [I|I]; [subst pre|]); try contradiction;
    repeat constructor.
Qed.

Lemma body_plain r pre ds n : In pre (prefixes r) -> denotes (base r) ds n ->
  Forall (fun c => plain c = true) (pre ++ ds).
Proof.
  intros I D. apply Forall_app. split; [now apply pre_plain with r|now apply den_plain in D].
Qed.

Lemma body_nonempty r pre ds : In pre (prefixes r) -> (r <> Oct -> ds <> []) -> pre ++ ds <> [].
Proof.
  destruct r; cbn; intros I N; repeat (destruct I as [I|I]; [subst pre|]); try contradiction; try discriminate.
  cbn. apply N. discriminate.
Qed.

(* the dispatch on the radix *)
Definition read (r : radix) (s : chars) (type : Z) (un : bool) : outcome parts :=
  match r with
  | Dec => dec_value s type un
  | Hex => hex_value s type
  | Bin => bin_value s type
  | Oct => oct_value s type
  end.

Definition is_dec (r : radix) : bool := match r with Dec => true | _ => false end.

Definition after (r : radix) (su : suffix) (o : outcome parts) : outcome expr :=
  match o with
  | Ok p => finish (unsigned su) (sfx_type su) (sfx_ltype su) (is_dec r) p
  | Error => Error
  | Undef => Undef
  | Unset => Unset
  end.

Lemma dispatch r pre ds n rest su :
  In pre (prefixes r) -> denotes (base r) ds n -> (r <> Oct -> ds <> []) ->
  (r = Dec -> forall ds', ds <> "0"%char :: ds') -> c_suffix su -> In rest (suffix_texts su) ->
  let s := pre ++ ds ++ rest in
  eqc (at_ s 0) "0" = negb (is_dec r) /\
  (r <> Dec -> checkX (at_ s 1) = match r with Hex => true | _ => false end) /\
  (r <> Dec -> r <> Hex -> checkB (at_ s 1) = match r with Bin => true | _ => false end).
Proof.
  intros I D N Z C Ir. destruct r; cbn in I.
  - repeat (destruct I as [I|I]; [subst pre|]); try contradiction; cbn; auto.
  - destruct I as [I|[]]; subst pre. cbn. split; [reflexivity|].
    assert (checkX (at_ (ds ++ rest) 0) = false /\ checkB (at_ (ds ++ rest) 0) = false) as (Hx & Hb).
    { destruct ds as [|c ds].
      - cbn. destruct su as [[]|[]|[]| |]; cbn in C;
          (try (exfalso; decompose [or] C; discriminate)); try contradiction;
          cbn in Ir; repeat (destruct Ir as [Ir|Ir]; [subst rest|]); try contradiction; split; reflexivity.
      - cbn. apply den_cons in D as (d & k & S & L & _). cbn in L.
        pose proof (stands_all c d S) as (_ & _ & X & B & _). split; auto. apply B. lia. }
    unfold at_ in *. cbn [nth]. split; auto.
  - destruct I as [I|[]]; subst pre. cbn [app is_dec negb].
    destruct ds as [|c ds]; [exfalso; now apply N|]. split; [|split; congruence].
    cbn. unfold eqc. destruct (Ascii.eqb_spec c "0"); [|reflexivity].
    subst. exfalso. now apply (Z eq_refl ds).
  - repeat (destruct I as [I|I]; [subst pre|]); try contradiction; cbn; split; auto; split; congruence.
Qed.

Lemma build_ok r ds su s n : literal r ds su s n -> s <> ["0"%char] -> s <> ["1"%char] ->
  exists pre rest, In pre (prefixes r) /\ In rest (suffix_texts (sfx_rest su)) /\
    (c_suffix su -> su <> After Ll -> s = pre ++ ds ++ rest) /\
    build_constantInteger s =
      after r su (read r (pre ++ ds ++ rest) (sfx_type su) (unsigned su)).
Proof.
  intros (pre & suf & -> & I & Is & D & N & Z) N0 N1.
  pose proof (body_plain r pre ds n I D) as P.
  pose proof (body_nonempty r pre ds I N) as Nb.
  destruct (suffixes_ok (pre ++ ds) su suf P Nb Is) as (rest & E & Ir & Er).
  exists pre, rest. split; [auto|]. split; [auto|].
  split. { intros C A. rewrite (Er C A). reflexivity. }
  unfold build_constantInteger.
  destruct (list_eq_dec ascii_dec (pre ++ ds ++ suf) ["0"%char]); [congruence|].
  destruct (list_eq_dec ascii_dec (pre ++ ds ++ suf) ["1"%char]); [congruence|].
  rewrite app_assoc, E, <- app_assoc.
  destruct (dispatch r pre ds n rest (sfx_rest su) I D N Z (rest_c su) Ir) as (H0 & Hx & Hb).
  rewrite H0, negb_involutive. unfold read, after.
  destruct r; cbn [is_dec].
  - rewrite Hx, Hb by discriminate. reflexivity.
  - rewrite Hx, Hb by discriminate. reflexivity.
  - reflexivity.
  - rewrite Hx by discriminate. reflexivity.
Qed.

Lemma zero_literal r ds su n : literal r ds su ["0"%char] n -> r = Oct /\ ds = [] /\ su = Plain Nolen /\ n = 0.
Proof.
  intros (pre & suf & E & I & Is & D & N & Z).
  destruct r; cbn in I; repeat (destruct I as [I|I]; [subst pre|]); try contradiction; try discriminate E.
  - cbn in E. injection E as E. symmetry in E. apply app_eq_nil in E as (-> & ->).
    apply den_nil_inv in D. subst.
    destruct su as [[]|[]|[]| |]; cbn in Is; repeat (destruct Is as [Is|Is]; try discriminate Is; try contradiction).
    auto.
  - cbn in E. destruct ds as [|c ds]; [exfalso; now apply N|].
    injection E as <- _. exfalso. now apply (Z eq_refl ds).
Qed.

Lemma one_literal r ds su n : literal r ds su ["1"%char] n -> r = Dec /\ ds = ["1"%char] /\ su = Plain Nolen /\ n = 1.
Proof.
  intros (pre & suf & E & I & Is & D & N & Z).
  destruct r; cbn in I; repeat (destruct I as [I|I]; [subst pre|]); try contradiction; try discriminate E.
  cbn in E. destruct ds as [|c ds]; [exfalso; now apply N|].
  injection E as <- E. symmetry in E. apply app_eq_nil in E as (-> & ->).
  apply den_one in D as (S & _).
  apply stands_all in S as (_ & _ & _ & _ & _ & (S & _) & _).
  destruct su as [[]|[]|[]| |]; cbn in Is; repeat (destruct Is as [Is|Is]; try discriminate Is; try contradiction).
  auto.
Qed.

(* ---- 64-bit literals that are not binary ---- *)

Lemma type_small su : len_of su <> L128 -> sfx_type su <? 5 = true.
Proof. destruct su as [[]|[]|[]| |]; cbn; congruence. Qed.

Lemma read64 r pre ds n rest su un : r <> Bin -> In pre (prefixes r) -> denotes (base r) ds n ->
  (r <> Oct -> ds <> []) -> c_suffix su -> In rest (suffix_texts su) ->
  forall ty, ty <? 5 = true ->
  read r (pre ++ ds ++ rest) ty un = Ok (single (pre ++ ds ++ rest) (sat n)).
Proof.
  intros Hr I D N C Ir ty Ht. pose proof (rest_stop su rest C Ir) as St.
  destruct r; [congruence| | |]; cbn [read]; cbn in I.
  - destruct I as [I|[]]; subst pre. unfold oct_value. rewrite Ht.
    cbn [txt list_ascii_of_string app].
    change ("0"%char :: ds ++ rest) with (("0"%char :: ds) ++ rest).
    rewrite (scanf_plain 8 ("0"%char :: ds) n rest); auto; [|discriminate].
    change ("0"%char :: ds) with (["0"%char] ++ ds).
    replace n with (0 * 8 ^ Z.of_nat (length ds) + n) by lia. apply den_app; auto.
    apply (den_snoc 8 [] "0" 0 0); [constructor| |lia]. split; [lia|left; reflexivity].
  - destruct I as [I|[]]; subst pre. unfold dec_value. rewrite Ht. cbn [app].
    rewrite (scanf_plain 10 ds n rest); auto. apply N. discriminate.
  - unfold hex_value. rewrite Ht.
    repeat (destruct I as [I|I]; [subst pre|]); try contradiction; cbn [txt list_ascii_of_string app];
      rewrite (scanf_hex _ ds n rest); auto; apply N; discriminate.
Qed.

Lemma v2t_range v dec un : 2 <= fst (valueToType v dec un) <= 4.
Proof.
  unfold valueToType. repeat match goal with |- context [if ?b then _ else _] => destruct b end; cbn; lia.
Qed.

(* the type and signedness after the value was looked at *)
Definition final (r : radix) (su : suffix) (v : Z) : Z * bool :=
  if sfx_type su =? -1 then valueToType v (is_dec r) (unsigned su) else (sfx_type su, unsigned su).

Lemma finish_ok r su p :
  exists e, finish (unsigned su) (sfx_type su) (sfx_ltype su) (is_dec r) p = Ok e /\
    let ret := Const (kind_of (snd (final r su (p_v p))) (fst (final r su (p_v p)))) (p_str p) (p_v p) in
    let ret2 := Const LongLongSignedInt (p_str2 p) (p_v2 p) in
    (len_of su = L128 -> e = if p_v2 p =? 0 then Compound ret2 ret else Compound ret ret2) /\
    (len_of su <> L128 -> value_of e = p_v p /\ text_of e = Some (p_str p)) /\
    (c_suffix su -> e = ret).
Proof.
  unfold finish, final. destruct (sfx_type su =? -1) eqn:E.
  - pose proof (v2t_range (p_v p) (is_dec r) (unsigned su)) as R.
    destruct (valueToType (p_v p) (is_dec r) (unsigned su)) as [t u]; cbn [fst snd] in *.
    replace ((0 <=? t) && (t <=? 6)) with true by lia. cbn [negb].
    replace (t <? 2) with false by lia. rewrite andb_false_r.
    destruct su as [[]|[]|[]| |]; cbn in E; try discriminate E; cbn [sfx_ltype ltype_of_len];
      eexists; (split; [reflexivity|]); cbn; repeat split; try congruence; try tauto.
  - destruct su as [[]|[]|[]| |]; cbn in E; try discriminate E;
      cbn [sfx_type sfx_ltype type_of_len ltype_of_len unsigned fst snd];
      eexists; (split; [reflexivity|]); cbn; repeat split; intros; try congruence; try tauto;
      repeat match goal with H : _ \/ _ |- _ => destruct H; try discriminate end.
Qed.

Lemma sat_id n : n < 2 ^ 64 -> sat n = n.
Proof. unfold sat, ULONG_MAX. lia. Qed.

Lemma build64 r ds su s n : literal r ds su s n -> r <> Bin -> len_of su <> L128 ->
  s <> ["0"%char] -> s <> ["1"%char] ->
  exists e pre rest, build_constantInteger s = Ok e /\ value_of e = sat n /\
    text_of e = Some (pre ++ ds ++ rest) /\ In pre (prefixes r) /\
    In rest (suffix_texts (sfx_rest su)) /\
    (c_suffix su -> su <> After Ll -> s = pre ++ ds ++ rest) /\
    (c_suffix su -> e = Const (kind_of (snd (final r su (sat n))) (fst (final r su (sat n))))
                          (pre ++ ds ++ rest) (sat n)).
Proof.
  intros L Hr Hl N0 N1. destruct (build_ok r ds su s n L N0 N1) as (pre & rest & I & Ir & Es & B).
  destruct L as (_ & _ & _ & _ & _ & D & N & _).
  rewrite (read64 r pre ds n rest (sfx_rest su)) in B; auto using rest_c, type_small.
  cbn [after] in B.
  destruct (finish_ok r su (single (pre ++ ds ++ rest) (sat n))) as (e & E & _ & V & K).
  exists e, pre, rest. rewrite E in B. destruct (V Hl) as (V1 & V2). cbn in V1, V2.
  repeat (split; auto).
Qed.
