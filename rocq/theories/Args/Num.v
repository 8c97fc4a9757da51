From Coq Require Import Ascii String List Bool Arith ZArith Lia ZifyBool.
From Verif Require Import Args.Model Args.Spec.
Import ListNotations.
Local Open Scope Z_scope.

(** * Digits *)
Lemma space_spec c : is_space c = true <-> In c blanks.
Proof. destruct c as [[] [] [] [] [] [] [] []]; vm_compute; split; intros H; try discriminate; try reflexivity; try tauto; repeat (destruct H as [H|H]; [try discriminate; try reflexivity|]); try tauto. Qed.
Lemma dig_dval (base : nat) c d : (base <= 16)%nat -> is_dig base c d -> dval (Z.of_nat base) c = Some (Z.of_nat d).
Proof.
  intros Hb [Hd H]. assert (D : (d < 16)%nat) by lia. assert (E : forall v, v = Z.of_nat d -> (if v <? Z.of_nat base then Some v else None) = Some (Z.of_nat d)).
  { intros v ->. destruct (Z.ltb_spec (Z.of_nat d) (Z.of_nat base)); [reflexivity|lia]. }
  do 16 (destruct d as [|d]; [destruct H as [H|H]; injection H as <-; apply E; reflexivity|]). lia.
Qed.
Lemma dval_dig (base : nat) c z : (base <= 16)%nat -> dval (Z.of_nat base) c = Some z -> exists d, z = Z.of_nat d /\ is_dig base c d.
Proof.
  intros Hb H. unfold dval in H.
  remember (if is_digit c then code c - 48 else if (97 <=? code c) && (code c <=? 102) then code c - 87 else if (65 <=? code c) && (code c <=? 70) then code c - 55 else 99) as v eqn:Ev.
  destruct (Z.ltb_spec v (Z.of_nat base)) as [L|L]; [|discriminate]. injection H as <-.
  assert (K : v = 99 \/ (0 <= v /\ (nth_error hex_low (Z.to_nat v) = Some c \/ nth_error hex_up (Z.to_nat v) = Some c))).
  { rewrite Ev. clear. destruct c as [[] [] [] [] [] [] [] []]; vm_compute; auto; right; (split; [discriminate|auto]). }
  destruct K as [K|[K0 K]]; [lia|]. exists (Z.to_nat v). split; [lia|]. split; [lia|exact K].
Qed.
Definition vf (base : Z) (t : text) (acc : Z) : Z := fold_left (fun a c => a * base + match dval base c with Some d => d | None => 0 end) t acc.
Definition alldig (base : Z) (t : text) : Prop := Forall (fun c => dval base c <> None) t.
Lemma digits_app base t : alldig base t -> forall acc, digits base t acc = (vf base t acc, []).
Proof.
  induction 1 as [|c t Hc _ IH]; intros acc; [reflexivity|]. cbn [digits]. unfold vf. cbn [fold_left]. destruct (dval base c) as [d|]; [apply IH|congruence].
Qed.
Lemma digits_inv base t : forall acc v, digits base t acc = (v, []) -> alldig base t /\ v = vf base t acc.
Proof.
  induction t as [|c t IH]; intros acc v; cbn [digits]; [intros [= <-]; split; [constructor|reflexivity]|].
  destruct (dval base c) as [d|] eqn:E; [|discriminate]. intros H. destruct (IH _ _ H) as [H1 H2]. split; [constructor; [congruence|exact H1]|].
  unfold vf in *. cbn [fold_left]. rewrite E. exact H2.
Qed.
Lemma reads_vf (base : nat) t z : (base <= 16)%nat -> reads base t z -> alldig (Z.of_nat base) t /\ z = vf (Z.of_nat base) t 0.
Proof.
  intros Hb. induction 1 as [|t z c d _ [IH1 IH2] Hd]; [split; [constructor|reflexivity]|]. apply (dig_dval _ _ _ Hb) in Hd. split.
  - apply Forall_app. split; [exact IH1|]. constructor; [congruence|constructor].
  - unfold vf in *. rewrite fold_left_app. cbn [fold_left]. rewrite Hd, <- IH2. reflexivity.
Qed.
Lemma vf_reads (base : nat) t : (base <= 16)%nat -> alldig (Z.of_nat base) t -> reads base t (vf (Z.of_nat base) t 0).
Proof.
  intros Hb. induction t as [|c t IH] using rev_ind; intros H; [constructor|]. apply Forall_app in H as [H1 H2]. inversion H2 as [|x y Hc _]; subst.
  unfold vf. rewrite fold_left_app. cbn [fold_left]. fold (vf (Z.of_nat base) t 0). destruct (dval (Z.of_nat base) c) as [d|] eqn:E; [|congruence].
  destruct (dval_dig _ _ _ Hb E) as [k [-> Hk]]. constructor; [apply IH, H1|exact Hk].
Qed.
Lemma digits_reads (base : nat) t v : (base <= 16)%nat -> digits (Z.of_nat base) t 0 = (v, []) <-> reads base t v.
Proof.
  intros Hb. split.
  - intros H. apply digits_inv in H as [H1 ->]. apply vf_reads; assumption.
  - intros H. apply (reads_vf _ _ _ Hb) in H as [H1 ->]. apply digits_app, H1.
Qed.
Lemma dval10 c : (exists d, dval 10 c = Some d) <-> is_digit c = true.
Proof. destruct c as [[] [] [] [] [] [] [] []]; vm_compute; split; try discriminate; try (intros [d H]; discriminate); eauto. Qed.
Lemma dval8_x c d : dval 8 c = Some d -> is_x c = false.
Proof. intros H. unfold is_x. destruct (Ascii.eqb_spec c "x"); [subst; discriminate|]. destruct (Ascii.eqb_spec c "X"); [subst; discriminate|reflexivity]. Qed.
Lemma digits_zero base r : base = 8 -> digits base ("0"%char :: r) 0 = digits base r 0.
Proof. intros ->. reflexivity. Qed.

(** * Numerals *)
Lemma body_numeral l v : body l = Some (v, []) <-> numeral l v.
Proof.
  split.
  - destruct l as [|c r]; cbn [body]; [discriminate|]. destruct (Ascii.eqb_spec c "0") as [->|Hc].
    + assert (O8 : Some (digits 8 ("0"%char :: r) 0) = Some (v, []) -> numeral ("0"%char :: r) v).
      { intros H0. assert (H : digits 8 ("0"%char :: r) 0 = (v, [])) by congruence. rewrite digits_zero in H by reflexivity. apply Noct. apply (digits_reads 8); [lia|exact H]. }
      destruct r as [|x [|d r]]; try exact O8. destruct (is_x x && match dval 16 d with Some _ => true | None => false end) eqn:E; [|exact O8].
      apply andb_prop in E as [Ex _]. cbn [tl]. intros H0. assert (H : digits 16 (d :: r) 0 = (v, [])) by congruence. apply Nhex.
      * unfold is_x in Ex. destruct (Ascii.eqb_spec x "x"); [auto|]. destruct (Ascii.eqb_spec x "X"); [auto|discriminate].
      * discriminate.
      * apply (digits_reads 16); [lia|exact H].
    + destruct (is_digit c) eqn:Ed; [|discriminate]. intros H0. assert (H : digits 10 (c :: r) 0 = (v, [])) by congruence. apply Ndec; [discriminate|exact Hc|]. apply (digits_reads 10); [lia|exact H].
  - intros [t z Hn H0 H|t z H|x t z Hx Hn H].
    + destruct t as [|c t]; [congruence|]. cbn [hd] in H0. cbn [body]. destruct (Ascii.eqb_spec c "0"); [congruence|].
      apply (digits_reads 10) in H; [|lia]. assert (is_digit c = true) as ->.
      { apply dval10. apply digits_inv in H as [H _]. inversion H as [|a b Hc _]; subst. change (Z.of_nat 10) with 10 in Hc. destruct (dval 10 c) as [d|]; [eauto|congruence]. }
      f_equal. exact H.
    + apply (digits_reads 8) in H; [|lia]. change (Z.of_nat 8) with 8 in H. cbn [body]. change (Ascii.eqb "0" "0") with true. cbn iota.
      assert (E : Some (digits 8 ("0"%char :: t) 0) = Some (z, [])) by (rewrite digits_zero by reflexivity; rewrite H; reflexivity).
      destruct t as [|x [|d t]]; try exact E. assert (is_x x = false) as ->; [|exact E].
      apply digits_inv in H as [H _]. inversion H as [|a b Hc _]; subst. destruct (dval 8 x) as [k|] eqn:Ek; [|congruence]. apply (dval8_x _ _ Ek).
    + apply (digits_reads 16) in H; [|lia]. change (Z.of_nat 16) with 16 in H. cbn [body]. change (Ascii.eqb "0" "0") with true. cbn iota.
      destruct t as [|d t]; [congruence|]. assert (is_x x = true) as -> by (destruct Hx as [->| ->]; reflexivity).
      assert (HD := H). apply digits_inv in HD as [HD _]. inversion HD as [|a b Hc _]; subst. destruct (dval 16 d) as [k|] eqn:Ek; [|congruence].
      cbn [andb tl]. rewrite H. reflexivity.
Qed.
Lemma numeral_head t z : numeral t z -> exists c r, t = c :: r /\ is_digit c = true.
Proof.
  intros H. apply body_numeral in H. destruct t as [|c r]; [discriminate|]. exists c, r. split; [reflexivity|]. cbn [body] in H.
  destruct (Ascii.eqb_spec c "0") as [->|]; [reflexivity|]. destruct (is_digit c); [reflexivity|discriminate].
Qed.
Lemma digit_space c : is_digit c = true -> is_space c = false.
Proof. unfold is_digit, is_space. lia. Qed.
Lemma digit_sign c r : is_digit c = true -> sign (c :: r) = (false, c :: r).
Proof. intros H. cbn [sign]. destruct (Ascii.eqb_spec c "-"); [subst; discriminate|]. destruct (Ascii.eqb_spec c "+"); [subst; discriminate|reflexivity]. Qed.
Lemma skip_white ws l : white ws -> skip (ws ++ l) = skip l.
Proof. unfold white. induction 1 as [|c ws Hc _ IH]; cbn [app skip]; [reflexivity|]. apply space_spec in Hc. rewrite Hc. exact IH. Qed.
Lemma skip_split l : exists ws, white ws /\ l = ws ++ skip l.
Proof.
  induction l as [|c l [ws [Hw IH]]]; [exists []; split; [constructor|reflexivity]|]. cbn [skip]. destruct (is_space c) eqn:E; [|exists []; split; [constructor|reflexivity]].
  exists (c :: ws). split; [constructor; [apply space_spec, E|exact Hw]|]. cbn [app]. congruence.
Qed.
Lemma strto_integer l z : strto l = (z, []) <-> integer l z \/ (l = [] /\ z = 0).
Proof.
  split.
  - unfold strto. destruct (skip_split l) as [ws [Hw El]]. destruct (sign (skip l)) as [neg r] eqn:Es. destruct (body r) as [[v rest]|] eqn:Eb.
    + intros [= <- ->]. left. apply body_numeral in Eb. rewrite El. clear El. destruct (skip l) as [|c s]; cbn [sign] in Es.
      * injection Es as <- <-. apply Iplain; assumption.
      * destruct (Ascii.eqb_spec c "-") as [->|]; [injection Es as <- <-; apply Iminus; assumption|].
        destruct (Ascii.eqb_spec c "+") as [->|]; injection Es as <- <-; [apply Iplus; assumption|apply Iplain; assumption].
    + intros [= <- ->]. auto.
  - intros [H|[-> ->]]; [|reflexivity]. unfold strto. destruct H as [ws t z Hw Hn|ws t z Hw Hn|ws t z Hw Hn]; rewrite skip_white by assumption.
    + destruct (numeral_head _ _ Hn) as [c [r [-> Hc]]]. cbn [skip]. rewrite (digit_space _ Hc), (digit_sign _ _ Hc). apply body_numeral in Hn. rewrite Hn. reflexivity.
    + cbn [skip]. change (is_space "+") with false. cbn iota. change (sign ("+"%char :: t)) with (false, t). cbv beta iota. apply body_numeral in Hn. rewrite Hn. reflexivity.
    + cbn [skip]. change (is_space "-") with false. cbn iota. change (sign ("-"%char :: t)) with (true, t). cbv beta iota. apply body_numeral in Hn. rewrite Hn. reflexivity.
Qed.
Lemma parse_int_spec l z : parse_int l = Some z <-> (integer l z \/ (l = [] /\ z = 0)) /\ - imax - 1 <= z <= imax.
Proof.
  rewrite <- strto_integer. unfold parse_int. destruct (strto l) as [r rest]. assert (I : imax = 2147483647) by reflexivity. assert (L : llmax = 9223372036854775807) by reflexivity. split.
  - destruct ((llmax <? r) || (r <? - llmax - 1)) eqn:E; [discriminate|]. destruct rest; [|discriminate].
    destruct (imax <? r) eqn:E1; [discriminate|]. destruct (r <? - imax - 1) eqn:E2; [discriminate|]. intros [= <-]. split; [reflexivity|lia].
  - intros [[= -> ->] H]. destruct ((llmax <? z) || (z <? - llmax - 1)) eqn:E; [lia|].
    destruct (imax <? z) eqn:E1; [lia|]. destruct (z <? - imax - 1) eqn:E2; [lia|reflexivity].
Qed.
Lemma parse_unsigned_spec max l z : max <= ullmax -> (parse_unsigned max l = Some z <-> exists ws t, white ws /\ l = ws ++ t /\ numeral t z /\ z <= max).
Proof.
  intros Hm. unfold parse_unsigned, strict. split.
  - destruct (skip l) as [|c s] eqn:Es; [discriminate|]. destruct (is_digit c) eqn:Ed; cbn [negb]; [|discriminate].
    destruct (strto l) as [r rest] eqn:Er. destruct rest; [|discriminate]. destruct (ullmax <? r) eqn:E1; [discriminate|]. destruct (max <? r) eqn:E2; [discriminate|]. intros [= <-].
    unfold strto in Er. rewrite Es, (digit_sign _ _ Ed) in Er. destruct (skip_split l) as [ws [Hw El]]. rewrite Es in El.
    destruct (body (c :: s)) as [[v rest]|] eqn:Eb.
    + injection Er as -> ->. apply body_numeral in Eb. exists ws, (c :: s). repeat split; try assumption. lia.
    + injection Er as <- ->. destruct ws; discriminate El.
  - intros [ws [t [Hw [-> [Hn Hz]]]]]. rewrite skip_white by assumption. destruct (numeral_head _ _ Hn) as [c [r [Et Hc]]].
    assert (E : strto (ws ++ t) = (z, [])) by (apply strto_integer; left; apply Iplain; assumption).
    rewrite E, Et. cbn [skip]. rewrite (digit_space _ Hc), Hc. cbn [negb]. destruct (ullmax <? z) eqn:E1; [lia|]. destruct (max <? z) eqn:E2; [lia|reflexivity].
Qed.
