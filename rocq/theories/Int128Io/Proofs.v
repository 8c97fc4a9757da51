From Coq Require Import List ZArith Bool Lia ZifyBool.
From Verif.Int128Io Require Import Model Spec.
Import ListNotations.
Local Open Scope Z_scope.

Lemma e63 : 2 ^ 63 = two63. Proof. reflexivity. Qed.
Lemma e64 : 2 ^ 64 = two64. Proof. reflexivity. Qed.
Lemma e127 : 2 ^ 127 = two127. Proof. reflexivity. Qed.
Lemma e128 : 2 ^ 128 = two128. Proof. reflexivity. Qed.
Lemma e19 : 10 ^ 19 = p10. Proof. reflexivity. Qed.

(* -- digits -- *)

Lemma digf_fuel : forall n m b v, 2 <= b -> v < 2 ^ Z.of_nat n -> v < 2 ^ Z.of_nat m -> digf n b v = digf m b v.
Proof.
  induction n as [|n IH]; intros m b v B H1 H2.
  - cbn in H1. destruct m; [reflexivity|]. cbn [digf]. destruct (Z.leb_spec v 0); [reflexivity|lia].
  - destruct m as [|m].
    + cbn in H2. cbn [digf]. destruct (Z.leb_spec v 0); [reflexivity|lia].
    + cbn [digf]. destruct (Z.leb_spec v 0); [reflexivity|]. f_equal.
      rewrite Nat2Z.inj_succ, Z.pow_succ_r in H1, H2 by lia.
      assert (v / b <= v / 2) by (apply Z.div_le_compat_l; lia).
      apply IH; auto; apply Z.le_lt_trans with (v / 2); auto; apply Z.div_lt_upper_bound; lia.
Qed.

Lemma digf_S : forall n b v, digf (S n) b v = if v <=? 0 then [] else digf n b (v / b) ++ [Dig (v mod b)].
Proof. reflexivity. Qed.

Lemma digs_zero : forall b v, v <= 0 -> digs b v = [].
Proof. intros. unfold digs. rewrite (digf_S 127). destruct (Z.leb_spec v 0); [reflexivity|lia]. Qed.

Lemma digs_step : forall b v, 2 <= b -> 0 < v < two128 -> digs b v = digs b (v / b) ++ [Dig (v mod b)].
Proof.
  intros b v B H. unfold digs. rewrite (digf_S 127). destruct (Z.leb_spec v 0) as [Q|_]; [lia|].
  assert (v / b <= v / 2) by (apply Z.div_le_compat_l; lia).
  assert (v / 2 < 2 ^ 127) by (apply Z.div_lt_upper_bound; [lia|]; change (2 * 2 ^ 127) with two128; lia).
  rewrite (digf_fuel 127 128); [reflexivity|lia| |].
  - replace (Z.of_nat 127) with 127%Z by reflexivity. lia.
  - replace (Z.of_nat 128) with 128%Z by reflexivity. assert (2 ^ 127 < 2 ^ 128) by reflexivity. lia.
Qed.
Global Opaque digs.

Lemma len_app : forall a b, len (a ++ b) = len a + len b.
Proof. intros. unfold len. rewrite app_length. lia. Qed.
Lemma len_nn : forall l, 0 <= len l. Proof. intros. unfold len. lia. Qed.
Lemma len_rep : forall n c, len (rep n c) = Z.max 0 n.
Proof. intros. unfold len, rep. rewrite repeat_length. lia. Qed.
Lemma rep_neg : forall n c, n <= 0 -> rep n c = [].
Proof. intros. unfold rep. replace (Z.to_nat n) with O by lia. reflexivity. Qed.
Lemma rep_app : forall n m c, 0 <= n -> 0 <= m -> rep (n + m) c = rep n c ++ rep m c.
Proof. intros. unfold rep. rewrite Z2Nat.inj_add, repeat_app by lia. reflexivity. Qed.

Lemma atleast_small : forall n l, n <= len l -> atleast n l = l.
Proof. intros. unfold atleast. rewrite rep_neg by lia. reflexivity. Qed.

Lemma len_atleast : forall n l, len (atleast n l) = Z.max n (len l).
Proof. intros. unfold atleast. rewrite len_app, len_rep. pose proof (len_nn l). lia. Qed.

Lemma atleast_app : forall n a b, atleast n (a ++ b) = atleast (n - len b) a ++ b.
Proof. intros. unfold atleast. rewrite len_app, app_assoc. do 3 f_equal. lia. Qed.

Lemma digs_len : forall (k : nat) b v, 2 <= b -> 0 <= v < b ^ Z.of_nat k -> v < two128 -> len (digs b v) <= Z.of_nat k.
Proof.
  induction k as [|k IH]; intros b v B H L.
  - cbn in H. rewrite digs_zero by lia. cbn. lia.
  - destruct (Z.eq_dec v 0) as [->|]; [rewrite digs_zero by lia; cbn; lia|].
    rewrite digs_step, len_app by lia. rewrite Nat2Z.inj_succ, Z.pow_succ_r in H by lia.
    assert (0 <= v / b < b ^ Z.of_nat k) by (split; [apply Z.div_pos; lia|apply Z.div_lt_upper_bound; lia]).
    assert (v / b <= v) by (apply Z.div_le_upper_bound; nia).
    specialize (IH b (v / b) B H0 ltac:(lia)). change (len [Dig (v mod b)]) with 1. lia.
Qed.

(* the number of digits *)
Lemma digs_len_ge : forall (k : nat) b v, 2 <= b -> b ^ Z.of_nat k <= v -> v < two128 -> Z.of_nat k < len (digs b v).
Proof.
  induction k as [|k IH]; intros b v B H L.
  - cbn in H. rewrite digs_step, len_app by lia. change (len [Dig (v mod b)]) with 1. pose proof (len_nn (digs b (v / b))). lia.
  - rewrite Nat2Z.inj_succ, Z.pow_succ_r in H by lia.
    assert (0 < b ^ Z.of_nat k) by (apply Z.pow_pos_nonneg; lia).
    assert (b ^ Z.of_nat k <= v / b) by (apply Z.div_le_lower_bound; lia).
    assert (v / b <= v) by (apply Z.div_le_upper_bound; nia).
    rewrite digs_step, len_app by nia. specialize (IH b (v / b) B H1 ltac:(lia)). change (len [Dig (v mod b)]) with 1. lia.
Qed.

Lemma digs_exact : forall b v d, 2 <= b -> 0 < v < two128 -> b ^ (d - 1) <= v < b ^ d -> len (digs b v) = d.
Proof.
  intros b v d B H P. assert (1 <= d).
  { destruct (Z.le_gt_cases 1 d); [assumption|]. exfalso. destruct (Z.eq_dec d 0) as [->|]; [change (b ^ 0) with 1 in P; lia|]. rewrite (Z.pow_neg_r b d) in P; lia. }
  pose proof (digs_len (Z.to_nat d) b v B). pose proof (digs_len_ge (Z.to_nat (d - 1)) b v B).
  rewrite Z2Nat.id in H1, H2 by lia. lia.
Qed.

Lemma digs_pos : forall b v, 2 <= b -> 0 < v < two128 -> 1 <= len (digs b v).
Proof. intros. rewrite digs_step, len_app by lia. change (len [Dig (v mod b)]) with 1. pose proof (len_nn (digs b (v / b))). lia. Qed.

Lemma atleast_step : forall (k : nat) b r, 2 <= b -> 0 <= r < b ^ Z.of_nat (S k) -> r < two128 ->
  atleast (Z.of_nat (S k)) (digs b r) = atleast (Z.of_nat k) (digs b (r / b)) ++ [Dig (r mod b)].
Proof.
  intros k b r B H L. destruct (Z.eq_dec r 0) as [->|N].
  - rewrite Z.div_0_l, Z.mod_0_l, !digs_zero by lia. unfold atleast. rewrite !app_nil_r. change (len []) with 0.
    rewrite Nat2Z.inj_succ. unfold Z.succ. rewrite !Z.sub_0_r. rewrite rep_app by lia. reflexivity.
  - rewrite digs_step by lia. rewrite atleast_app. change (len [Dig (r mod b)]) with 1. do 2 f_equal. lia.
Qed.

Lemma digs_split : forall (k : nat) b q r, 2 <= b -> 0 < q -> 0 <= r < b ^ Z.of_nat k -> q * b ^ Z.of_nat k + r < two128 ->
  digs b (q * b ^ Z.of_nat k + r) = digs b q ++ atleast (Z.of_nat k) (digs b r).
Proof.
  induction k as [|k IH]; intros b q r B Q R L.
  - change (Z.of_nat 0) with 0 in *. rewrite Z.pow_0_r in *. assert (r = 0) as -> by lia. rewrite (digs_zero b 0) by lia.
    unfold atleast. cbn. rewrite app_nil_r. f_equal. lia.
  - rewrite atleast_step by (try assumption; nia). rewrite Nat2Z.inj_succ, Z.pow_succ_r in * by lia.
    set (P := b ^ Z.of_nat k) in *. assert (0 < P) by (apply Z.pow_pos_nonneg; lia).
    assert (E : q * (b * P) + r = (q * P + r / b) * b + r mod b) by (pose proof (Z.div_mod r b); nia).
    assert (MB : 0 <= r mod b < b) by (apply Z.mod_pos_bound; lia).
    assert (E1 : (q * (b * P) + r) / b = q * P + r / b) by (rewrite E, Z.div_add_l, (Z.div_small (r mod b)) by lia; lia).
    assert (E2 : (q * (b * P) + r) mod b = r mod b) by (rewrite E, Z.add_comm, Z.mod_add, Z.mod_mod by lia; reflexivity).
    rewrite digs_step by nia. rewrite E1, E2, app_assoc. f_equal. apply IH; auto.
    + split; [apply Z.div_pos; lia|apply Z.div_lt_upper_bound; lia].
    + assert (r / b <= r) by (apply Z.div_le_upper_bound; nia). nia.
Qed.

Lemma value_app : forall b l a m, value b a (l ++ m) = value b (value b a l) m.
Proof. induction l as [|c l IH]; intros a m; [reflexivity|]. destruct c; cbn [app value]; apply IH. Qed.

Lemma digs_numeral : forall b v, 2 <= b -> 0 <= v < two128 -> numeral b v (digs b v).
Proof.
  intros b v B H. revert H. assert (X : forall n : nat, forall v, 0 <= v < 2 ^ Z.of_nat n -> v < two128 -> numeral b v (digs b v)).
  { induction n as [|n IH]; intros x H L.
    - cbn in H. rewrite digs_zero by lia. split; [constructor|]. split; [cbn; lia|exact I].
    - destruct (Z.eq_dec x 0) as [->|N]; [rewrite digs_zero by lia; split; [constructor|]; split; [reflexivity|exact I]|].
      rewrite digs_step by lia. rewrite Nat2Z.inj_succ, Z.pow_succ_r in H by lia.
      assert (x / b <= x / 2) by (apply Z.div_le_compat_l; lia).
      assert (x / 2 < 2 ^ Z.of_nat n) by (apply Z.div_lt_upper_bound; lia).
      assert (x / 2 <= x) by (apply Z.div_le_upper_bound; lia). assert (0 <= x / b) by (apply Z.div_pos; lia).
      destruct (IH (x / b) ltac:(lia) ltac:(lia)) as (A & V & HZ). split; [|split].
      + apply Forall_app. split; [exact A|]. constructor; [|constructor]. exists (x mod b). split; [reflexivity|]. apply Z.mod_pos_bound. lia.
      + rewrite value_app, V. cbn [value]. pose proof (Z.div_mod x b). lia.
      + destruct (digs b (x / b)) eqn:Q; [|exact HZ]. cbn [app]. intros K. injection K as K. cbn in V. rewrite <- V in *.
        pose proof (Z.div_mod x b). lia. }
  intros H. apply (X 128%nat); [exact H|lia].
Qed.

(* Two numerals of the same number are the same. *)
Lemma value_bound : forall b l, 2 <= b -> Forall (digit b) l -> forall a, 0 <= a ->
  a * b ^ len l <= value b a l < (a + 1) * b ^ len l.
Proof.
  intros b l B H. induction H as [|c l (d & -> & D) H IH]; intros a A.
  - cbn. lia.
  - cbn [value]. specialize (IH (a * b + d) ltac:(nia)).
    assert (E : b ^ len (Dig d :: l) = b * b ^ len l).
    { replace (len (Dig d :: l)) with (Z.succ (len l)) by (unfold len; cbn [length]; lia). apply Z.pow_succ_r, len_nn. }
    rewrite E. assert (0 < b ^ len l) by (apply Z.pow_pos_nonneg; [lia|apply len_nn]). nia.
Qed.

Lemma numeral_digs : forall b v ds, 2 <= b -> 0 <= v < two128 -> numeral b v ds -> ds = digs b v.
Proof.
  intros b v ds B R (A & V & H0). revert v R V. induction ds as [|c ds IH] using rev_ind; intros v R V.
  - cbn in V. subst v. rewrite digs_zero by lia. reflexivity.
  - apply Forall_app in A. destruct A as [A C]. apply Forall_inv in C. destruct C as (d & -> & D). rewrite value_app in V. cbn [value] in V.
    assert (P : 0 < v).
    { destruct ds as [|c0 ds]; cbn [app] in H0.
      - cbn in V. assert (d <> 0) by congruence. lia.
      - pose proof (Forall_inv A) as (d0 & -> & D0). apply Forall_inv_tail in A as A2. assert (d0 <> 0) by congruence. cbn [value] in V.
        pose proof (value_bound b ds B A2 (0 * b + d0) ltac:(lia)).
        assert (0 < b ^ len ds) by (apply Z.pow_pos_nonneg; [lia|apply len_nn]). nia. }
    assert (DM : v / b = value b 0 ds /\ v mod b = d).
    { rewrite <- V. split; [rewrite Z.div_add_l, Z.div_small by lia; lia|rewrite Z.add_comm, Z.mod_add, Z.mod_small by lia; reflexivity]. }
    destruct DM as [DV DD]. rewrite digs_step by lia. rewrite DD, DV. f_equal. apply IH; auto.
    + destruct ds; [exact I|exact H0].
    + rewrite <- DV. split; [apply Z.div_pos; lia|]. assert (v / b <= v) by (apply Z.div_le_upper_bound; nia). lia.
Qed.

(* -- plain -- *)

Definition dec1 (v : Z) : list ch := match digs 10 v with [] => [Dig 0] | _ => digs 10 v end.

Lemma dec1_atleast : forall v, dec1 v = atleast 1 (digs 10 v).
Proof.
  intros v. unfold dec1. destruct (digs 10 v) as [|c l] eqn:E; [reflexivity|]. rewrite atleast_small; [reflexivity|]. unfold len. cbn [length]. lia.
Qed.

Lemma dec1_pos : forall v, 0 < v < two128 -> dec1 v = digs 10 v.
Proof. intros v H. rewrite dec1_atleast. apply atleast_small. apply digs_pos; lia. Qed.

Lemma base10_S : forall n v, base10_128 (S n) v =
  if negb (v / two64 =? 0) || (p10 <? v mod two64)
  then match base10_128 n (v / p10) with
       | None => None
       | Some t => Some (t ++ atleast 19 (digs 10 (v mod p10)))
       end
  else Some (atleast 1 (digs 10 (v mod two64))).
Proof. reflexivity. Qed.

Lemma base10_ok : forall n v, 0 <= v < two128 -> v < p10 ^ Z.of_nat (S n) -> base10_128 (S n) v = Some (dec1 v).
Proof.
  induction n as [|n IH]; intros v R L.
  - change (p10 ^ Z.of_nat 1) with p10 in L. cbn [base10_128].
    assert (v / two64 = 0) as -> by (apply Z.div_small; unfold two64, p10 in *; lia).
    rewrite Z.mod_small by (unfold two64, p10 in *; lia).
    assert (p10 <? v = false) as -> by lia. cbn [Z.eqb negb orb]. rewrite dec1_atleast. reflexivity.
  - rewrite base10_S.
    assert (E : negb (v / two64 =? 0) || (p10 <? v mod two64) = (p10 <? v)).
    { destruct (Z.lt_ge_cases v two64).
      - rewrite Z.div_small, Z.mod_small by lia. reflexivity.
      - assert (0 < v / two64) by (apply Z.div_str_pos; unfold two64 in *; lia).
        assert (v / two64 =? 0 = false) as -> by lia. cbn [negb orb]. symmetry. apply Z.ltb_lt. unfold p10, two64 in *. lia. }
    rewrite E. destruct (Z.ltb_spec p10 v) as [G|G].
    + assert (0 < v / p10) by (apply Z.div_str_pos; unfold p10 in *; lia).
      assert (v / p10 <= v) by (apply Z.div_le_upper_bound; unfold p10 in *; lia).
      rewrite IH.
      * rewrite dec1_pos by lia. f_equal.
        assert (X : v = v / p10 * 10 ^ Z.of_nat 19 + v mod p10) by (change (10 ^ Z.of_nat 19) with p10; pose proof (Z.div_mod v p10); unfold p10 in *; lia).
        rewrite X at 3. change 19 with (Z.of_nat 19) at 1. symmetry. rewrite dec1_pos by lia. apply digs_split; try lia.
        change (10 ^ Z.of_nat 19) with p10. apply Z.mod_pos_bound. unfold p10. lia.
      * lia.
      * rewrite (Nat2Z.inj_succ (S n)), Z.pow_succ_r in L by lia. apply Z.div_lt_upper_bound; [unfold p10; lia|exact L].
    + f_equal. rewrite dec1_atleast. rewrite Z.mod_small; [reflexivity|]. unfold p10, two64 in *. lia.
Qed.

Lemma print_u_ok : forall v, 0 <= v < two128 -> print_u v = Some (dec1 v).
Proof. intros v H. apply base10_ok; [exact H|]. apply Z.lt_trans with two128; [lia|reflexivity]. Qed.

Lemma print_s_ok : forall v, - two127 < v < two127 -> print_s v = Some ((if v <? 0 then [Minus] else []) ++ dec1 (Z.abs v)).
Proof.
  intros v H. unfold print_s. change two128 with (2 * two127) in *. pose proof print_u_ok as P. unfold print_u in P. change two128 with (2 * two127) in P.
  destruct (Z.ltb_spec v 0).
  - assert (v =? - two127 = false) as -> by lia. rewrite P by lia. replace (Z.abs v) with (- v) by lia. reflexivity.
  - rewrite P by lia. replace (Z.abs v) with v by lia. reflexivity.
Qed.

Lemma dec1_decimal : forall v, Z.abs v < two128 -> decimal v ((if v <? 0 then [Minus] else []) ++ dec1 (Z.abs v)).
Proof. intros v H. exists (digs 10 (Z.abs v)). split; [apply digs_numeral; lia|]. reflexivity. Qed.

(* -- reading -- *)

Definition notdigit (l : list ch) : Prop := match l with Dig d :: _ => ~ 0 <= d <= 9 | _ => True end.

Lemma dropd_not : forall l, notdigit l -> dropd l = l.
Proof.
  intros [|c l] H; [reflexivity|]. destruct c as [| | | | | |d]; try reflexivity. cbn [dropd notdigit] in *.
  destruct (Z.leb_spec 0 d), (Z.leb_spec d 9); cbn [andb]; try reflexivity. lia.
Qed.

Lemma taked_all : forall n ds r, Forall (digit 10) ds -> (length ds <= n)%nat -> notdigit r ->
  exists zs, taked n (ds ++ r) = (zs, r) /\ ds = map Dig zs.
Proof.
  intros n ds r H. revert n. induction H as [|c l (d & -> & D) H IH]; intros n L N.
  - exists []. split; [|reflexivity]. cbn [app]. destruct n, r as [|c r]; try reflexivity. cbn [taked].
    destruct c as [| | | | | |d]; try reflexivity. cbn [notdigit] in N.
    destruct (Z.leb_spec 0 d), (Z.leb_spec d 9); cbn [andb]; try reflexivity. lia.
  - destruct n; [cbn in L; lia|]. cbn [app taked]. destruct (Z.leb_spec 0 d); [|lia]. destruct (Z.leb_spec d 9); [|lia]. cbn [andb].
    destruct (IH n ltac:(cbn in L; lia) N) as (zs & E & ->). rewrite E. exists (d :: zs). split; reflexivity.
Qed.

Lemma fold_value : forall zs a, 0 <= a < two128 -> fold_left (fun a d => (a * 10 + d) mod two128) zs a = value 10 a (map Dig zs) mod two128.
Proof.
  assert (M : forall zs a b, a mod two128 = b mod two128 -> value 10 a (map Dig zs) mod two128 = value 10 b (map Dig zs) mod two128).
  { induction zs as [|d zs IH]; intros a b E; [exact E|]. cbn [map value]. apply IH.
    rewrite <- (Z.add_mod_idemp_l (a * 10)), <- (Z.add_mod_idemp_l (b * 10)), <- (Z.mul_mod_idemp_l a), <- (Z.mul_mod_idemp_l b), E by discriminate. reflexivity. }
  induction zs as [|d zs IH]; intros a A; [cbn; rewrite Z.mod_small; lia|]. cbn [fold_left map value].
  rewrite IH by (apply Z.mod_pos_bound; reflexivity). apply M. apply Z.mod_mod. discriminate.
Qed.

Lemma skipsp_app : forall n l, skipsp (repeat Sp n ++ l) = skipsp l.
Proof. induction n; intros; [reflexivity|]. cbn. apply IHn. Qed.

Lemma dec1_digits : forall v, 0 <= v < two128 -> Forall (digit 10) (dec1 v) /\ value 10 0 (dec1 v) = v /\ (length (dec1 v) <= 39)%nat /\ dec1 v <> [].
Proof.
  intros v H. destruct (digs_numeral 10 v ltac:(lia) H) as (A & V & _).
  assert (L : len (digs 10 v) <= Z.of_nat 39).
  { apply digs_len; [lia| |lia]. split; [lia|]. apply Z.lt_trans with two128; [lia|reflexivity]. }
  unfold dec1. destruct (digs 10 v) as [|c l].
  - split; [|split; [|split]]; [|exact V|cbn; lia|discriminate]. constructor; [|constructor]. exists 0. split; [reflexivity|lia].
  - split; [exact A|]. split; [exact V|]. split; [unfold len in L; lia|discriminate].
Qed.

(* what is read back from the digits of v *)
Lemma read_digits : forall v r, 0 <= v < two128 -> notdigit r ->
  exists zs, taked 39 (dec1 v ++ r) = (zs, r) /\ zs <> [] /\ fold_left (fun a d => (a * 10 + d) mod two128) zs 0 = v.
Proof.
  intros v r H N. destruct (dec1_digits v H) as (A & V & L & NE). destruct (taked_all 39 (dec1 v) r A L N) as (zs & E & Q).
  exists zs. split; [exact E|]. split; [intros ->; apply NE; exact Q|]. rewrite fold_value by (unfold two128; lia). rewrite <- Q, V. apply Z.mod_small. lia.
Qed.

Lemma head_dec1 : forall v r, 0 <= v < two128 -> skipsp (dec1 v ++ r) = dec1 v ++ r /\ takem (dec1 v ++ r) = (O, dec1 v ++ r).
Proof.
  intros v r H. destruct (dec1_digits v H) as (A & _ & _ & NE). destruct (dec1 v) as [|c l]; [congruence|].
  apply Forall_inv in A. destruct A as (d & -> & D). split; reflexivity.
Qed.

Lemma read_plain : forall n old v r, 0 <= v < two128 -> notdigit r -> read_u old (repeat Sp n ++ dec1 v ++ r) = Got v r.
Proof.
  intros n old v r H N. unfold read_u. rewrite skipsp_app. destruct (head_dec1 v r H) as [-> ->]. cbn [Nat.leb].
  destruct (read_digits v r H N) as (zs & -> & NZ & F). destruct zs as [|z zs]; [congruence|]. rewrite F. cbn [Nat.eqb]. rewrite dropd_not by exact N. reflexivity.
Qed.

Lemma read_minus : forall n old v r, 0 <= v < two128 -> notdigit r -> read_u old (repeat Sp n ++ Minus :: dec1 v ++ r) = Got ((- v) mod two128) r.
Proof.
  intros n old v r H N. unfold read_u. rewrite skipsp_app. cbn [skipsp takem]. destruct (head_dec1 v r H) as [_ ->]. cbn [fst snd Nat.leb].
  destruct (read_digits v r H N) as (zs & -> & NZ & F). destruct zs as [|z zs]; [congruence|]. rewrite F. cbn [Nat.eqb]. rewrite dropd_not by exact N. reflexivity.
Qed.

(* -- binary -- *)

Lemma bits_len : forall v, 0 < v < two128 -> len (digs 2 v) = high1 v.
Proof.
  intros v H. unfold high1. destruct (Z.leb_spec v 0) as [|_]; [lia|]. apply digs_exact; [lia|lia|].
  pose proof (Z.log2_spec v ltac:(lia)) as L. rewrite <- Z.add_1_r in L. replace (Z.log2 v + 1 - 1) with (Z.log2 v) by lia. exact L.
Qed.

Lemma sixteen : forall x, 0 <= x < 16 -> x = 0 \/ x = 1 \/ x = 2 \/ x = 3 \/ x = 4 \/ x = 5 \/ x = 6 \/ x = 7 \/ x = 8 \/ x = 9 \/ x = 10 \/ x = 11 \/ x = 12 \/ x = 13 \/ x = 14 \/ x = 15.
Proof. lia. Qed.

Lemma longbin_ok : forall x, 0 <= x < 16 -> longbin x = atleast 4 (digs 2 x).
Proof.
  intros x H. apply sixteen in H. repeat (destruct H as [->|H]; [vm_compute; reflexivity|]). subst x. vm_compute. reflexivity.
Qed.

Lemma shortbin_ok : forall x, 0 < x < 16 -> shortbin x = digs 2 x.
Proof.
  intros x H. assert (G : 0 <= x < 16) by lia. apply sixteen in G. destruct G as [->|G]; [lia|].
  repeat (destruct G as [->|G]; [vm_compute; reflexivity|]). subst x. vm_compute. reflexivity.
Qed.

Lemma pow16 : forall n : nat, 16 ^ Z.of_nat n = 2 ^ Z.of_nat (4 * n).
Proof. intros n. change 16 with (2 ^ 4). rewrite <- Z.pow_mul_r by lia. f_equal. lia. Qed.

Lemma nibbles_ok : forall n v, 0 <= v < two128 -> nibbles n v = atleast (Z.of_nat (4 * n)) (digs 2 (v mod 16 ^ Z.of_nat n)).
Proof.
  induction n as [|n IH]; intros v H.
  - cbn [nibbles]. change (16 ^ Z.of_nat 0) with 1. rewrite Z.mod_1_r, digs_zero by lia. reflexivity.
  - cbn [nibbles]. set (P := 16 ^ Z.of_nat n). assert (0 < P) by (apply Z.pow_pos_nonneg; lia).
    assert (R : 0 <= v mod P < P) by (apply Z.mod_pos_bound; lia).
    assert (X : 0 <= v / P mod 16 < 16) by (apply Z.mod_pos_bound; lia).
    assert (E : v mod 16 ^ Z.of_nat (S n) = (v / P mod 16) * P + v mod P).
    { rewrite Nat2Z.inj_succ, Z.pow_succ_r by lia. fold P. rewrite (Z.mul_comm 16 P), Z.rem_mul_r by lia. lia. }
    assert (V : v mod 16 ^ Z.of_nat (S n) <= v) by (apply Z.mod_le; [lia|apply Z.pow_pos_nonneg; lia]).
    rewrite longbin_ok, IH by lia. fold P. rewrite E in *. set (x := v / P mod 16) in *. set (r := v mod P) in *.
    assert (L : len (digs 2 r) <= Z.of_nat (4 * n)).
    { apply digs_len; [lia| |nia]. rewrite <- pow16. fold P. lia. }
    destruct (Z.eq_dec x 0) as [->|N].
    + rewrite (digs_zero 2 0) by lia. rewrite Z.mul_0_l, Z.add_0_l. unfold atleast. rewrite app_nil_r. change (len []) with 0.
      rewrite app_assoc, <- rep_app by lia. do 2 f_equal. lia.
    + unfold P in *. rewrite pow16 in *. rewrite digs_split by (try lia; nia). rewrite atleast_app, len_atleast.
      do 2 f_equal. lia.
Qed.

Lemma body_ok : forall v, 0 <= v < two128 ->
  let bits := if high1 v =? 0 then 1 else high1 v in
  bits = Z.max 1 (len (digs 2 v)) /\
  shortbin (v / 16 ^ ((bits - 1) / 4) mod 16) ++ nibbles (Z.to_nat ((bits - 1) / 4)) v = atleast 1 (digs 2 v).
Proof.
  intros v H. destruct (Z.eq_dec v 0) as [->|N].
  - split; vm_compute; reflexivity.
  - cbn zeta. pose proof (bits_len v ltac:(lia)) as B. pose proof (digs_pos 2 v ltac:(lia) ltac:(lia)) as P.
    assert (high1 v =? 0 = false) as -> by lia. split; [lia|].
    rewrite (atleast_small 1) by lia.
    set (L := high1 v - 1). assert (HL : 0 <= L) by lia. assert (LS : 2 ^ L <= v < 2 ^ (L + 1)).
    { unfold L, high1. destruct (Z.leb_spec v 0); [lia|]. pose proof (Z.log2_spec v ltac:(lia)) as Q. rewrite <- Z.add_1_r in Q. replace (Z.log2 v + 1 - 1) with (Z.log2 v) by lia. exact Q. }
    assert (D4 : 0 <= L / 4) by (apply Z.div_pos; lia).
    remember (Z.to_nat (L / 4)) as s eqn:ES. assert (SE : L / 4 = Z.of_nat s) by lia. rewrite SE.
    assert (LB : 4 * Z.of_nat s <= L < 4 * Z.of_nat s + 4) by (pose proof (Z.div_mod L 4); pose proof (Z.mod_pos_bound L 4); lia).
    set (Q := 16 ^ Z.of_nat s). assert (EQ : Q = 2 ^ (4 * Z.of_nat s)) by (unfold Q; rewrite pow16; f_equal; lia).
    assert (0 < Q) by (rewrite EQ; apply Z.pow_pos_nonneg; lia).
    assert (QL : Q <= v). { apply Z.le_trans with (2 ^ L); [|lia]. rewrite EQ. apply Z.pow_le_mono_r; lia. }
    assert (QU : v < Q * 16). { apply Z.lt_le_trans with (2 ^ (L + 1)); [lia|]. rewrite EQ. change 16 with (2 ^ 4). rewrite <- Z.pow_add_r by lia. apply Z.pow_le_mono_r; lia. }
    assert (T : 0 < v / Q < 16) by (split; [apply Z.div_str_pos; lia|apply Z.div_lt_upper_bound; lia]).
    rewrite (Z.mod_small (v / Q)) by lia. rewrite shortbin_ok, nibbles_ok by lia. fold Q.
    assert (X : v = v / Q * 2 ^ Z.of_nat (4 * s) + v mod Q) by (rewrite <- pow16; fold Q; pose proof (Z.div_mod v Q); lia).
    rewrite X at 3. symmetry. apply digs_split; try lia. rewrite <- pow16. fold Q. apply Z.mod_pos_bound. lia.
Qed.

(* -- the layout as a field -- *)

Definition SG (f : fmtf) (v : Z) : list ch :=
  match bs f with Dec => if v <? 0 then [Minus] else if sign f then [Plus] else [] | _ => [] end.
Definition PR (f : fmtf) (d : list ch) : list ch :=
  if nobsdp f then [] else match bs f with Bin => [Dig 0; Lb] | Hex => [Dig 0; Lx] | Oct => if isz d then [] else [Dig 0] | _ => [] end.
Definition LE (f : fmtf) : Z := if pcf f then Z.max 1 (pc f) else 1.

Lemma laid_field : forall f v ds, laid_out f v ds =
  field (left f) (pad0 f && negb (pcf f)) (wd f) (SG f v) (PR f (atleast (LE f) ds)) (atleast (LE f) ds).
Proof.
  intros f v ds. unfold laid_out, field, SG, LE. change many with rep. change size with len. fold (atleast (if pcf f then Z.max 1 (pc f) else 1) ds).
  set (d := atleast _ ds).
  assert (E : (if nobsdp f then [] else match bs f with Bin => [Dig 0; Lb] | Hex => [Dig 0; Lx]
               | Oct => match d with Dig 0 :: _ => [] | _ => [Dig 0] end | _ => [] end) = PR f d).
  { unfold PR. destruct (nobsdp f); [reflexivity|]. destruct (bs f); try reflexivity.
    destruct d as [|c d']; [reflexivity|]. destruct c as [| | | | | |x]; try reflexivity. cbn [isz]. destruct x; reflexivity. }
  rewrite E, !len_app, Z.add_assoc. reflexivity.
Qed.

Lemma rep_cons : forall n l, rep n (Dig 0) ++ Dig 0 :: l = Dig 0 :: rep n (Dig 0) ++ l.
Proof. intros n l. unfold rep. induction (Z.to_nat n) as [|m IH]; [reflexivity|]. cbn [repeat app]. rewrite IH. reflexivity. Qed.

Lemma field_oct : forall l z w s d, field l z w s [] (Dig 0 :: d) = field l z w s [Dig 0] d.
Proof.
  intros. unfold field. replace (len s + len [] + len (Dig 0 :: d)) with (len s + len [Dig 0] + len d) by (unfold len; cbn [length]; lia).
  destruct l; [reflexivity|]. destruct z; [|reflexivity]. cbn [app]. rewrite rep_cons. reflexivity.
Qed.

Definition sval (b : base) (v : Z) : Z := match b with Dec => if v <? two63 then v else v - two64 | _ => v end.

Record c64 (f : fmtf) (v : Z) : Prop := {
  c_range : 0 <= v < two64;
  c_pc : pcf f = true -> 1 <= pc f \/ v <> 0;
  c_bin : bs f = Bin -> pcf f = true -> Z.max 1 (len (digs 2 v)) <= pc f;
  c_hex : bs f = Hex -> v = 0 -> nobsdp f = true \/ left f = true \/ pad0 f && negb (pcf f) = true \/ wd f <= 2 + (if pcf f then pc f else 1)
}.

Lemma prec_ok : forall f v ds, c64 f v -> (v <> 0 -> 1 <= len ds) -> (if pcf f then atleast (pc f) ds else atleast 1 ds) = atleast (LE f) ds.
Proof.
  intros f v ds [] P. unfold LE. destruct (pcf f); [|reflexivity]. destruct (Z.le_gt_cases 1 (pc f)); [rewrite Z.max_r by lia; reflexivity|].
  rewrite Z.max_l, !atleast_small by (specialize (c_pc0 eq_refl); lia). reflexivity.
Qed.

Lemma abs_sval : forall f v, 0 <= v < two64 -> 0 <= Z.abs (sval (bs f) v) < two64 /\ (v <> 0 -> Z.abs (sval (bs f) v) <> 0) /\ (v = 0 -> sval (bs f) v = 0).
Proof. intros f v H. unfold sval, two64, two63 in *. destruct (bs f); try lia. destruct (Z.ltb_spec v 9223372036854775808); lia. Qed.

Lemma field_hex0 : forall l z w d, (l = true \/ z = true \/ w <= 2 + len d) -> 1 <= len d ->
  [Dig 0; Lx] ++ field l z (if w - 2 <? 0 then 1 else w - 2) [] [] d = field l z w [] [Dig 0; Lx] d.
Proof.
  intros l z w d H L. unfold field. change (len []) with 0. change (len [Dig 0; Lx]) with 2.
  assert (E : forall c, rep ((if w - 2 <? 0 then 1 else w - 2) - (0 + 0 + len d)) c = rep (w - (0 + 2 + len d)) c).
  { intros c. destruct (Z.ltb_spec (w - 2) 0); [rewrite !rep_neg by lia; reflexivity|]. f_equal. lia. }
  destruct l; [rewrite E; reflexivity|]. destruct z; [rewrite E; reflexivity|]. rewrite E.
  assert (w <= 2 + len d) by (destruct H as [H|[H|H]]; [discriminate|discriminate|exact H]).
  rewrite !rep_neg by lia. reflexivity.
Qed.

Lemma isz_zero : forall n, 1 <= n -> isz (atleast n []) = true.
Proof. intros n H. unfold atleast, rep. change (len []) with 0. replace (Z.to_nat (n - 0)) with (S (Z.to_nat (n - 1))) by lia. reflexivity. Qed.

Lemma manip_ok : forall f v, c64 f v -> manip f v = laid_out f (sval (bs f) v) (digs (base_of (bs f)) (Z.abs (sval (bs f) v))).
Proof.
  intros f v C. pose proof C as []. destruct (abs_sval f v c_range0) as (AR & AN & A0).
  assert (R128 : two64 < two128) by reflexivity.
  rewrite laid_field. set (a := Z.abs (sval (bs f) v)) in *. set (ds := digs (base_of (bs f)) a) in *.
  assert (B2 : 2 <= base_of (bs f)) by (destruct (bs f); cbn; lia).
  assert (PL : v <> 0 -> 1 <= len ds) by (intros N; apply digs_pos; [lia|specialize (AN N); lia]).
  pose proof (prec_ok f v ds C PL) as PE.
  unfold manip. destruct (bs f) eqn:EB.
  - (* Bin *)
    unfold sval in *. assert (a = v) as Ea by (unfold a; lia). subst ds. rewrite Ea in *. clear AR AN A0. cbn [base_of] in *.
    destruct (body_ok v ltac:(lia)) as [E1 E2]. unfold bespoke. cbn zeta in E1, E2. rewrite E2. rewrite E1. clear E1 E2.
    unfold SG, PR. rewrite EB. set (ds := digs 2 v) in *. rewrite <- PE. unfold field. change (len []) with 0. rewrite !app_nil_l.
    assert (LP : len (if nobsdp f then [] else [Dig 0; Lb]) = if nobsdp f then 0 else 2) by (destruct (nobsdp f); reflexivity).
    destruct (pcf f) eqn:EP.
    + pose proof (c_bin0 eq_refl eq_refl) as CB. rewrite len_atleast, LP. rewrite andb_false_r.
      assert (X : rep (pc f - Z.max 1 (len ds)) (Dig 0) ++ atleast 1 ds = atleast (pc f) ds).
      { unfold atleast. destruct (Z.le_gt_cases 1 (len ds)).
        - rewrite (rep_neg (1 - len ds)) by lia. rewrite Z.max_r by lia. reflexivity.
        - pose proof (len_nn ds). rewrite app_assoc, <- rep_app by lia. do 2 f_equal. lia. }
      destruct (left f); cbn [negb].
      * rewrite (app_assoc (rep _ _)), X. do 3 f_equal. destruct (nobsdp f); lia.
      * rewrite X. do 2 f_equal. destruct (nobsdp f); lia.
    + rewrite len_atleast, LP, andb_true_r.
      destruct (left f); cbn [negb].
      * rewrite app_nil_l. do 3 f_equal. destruct (nobsdp f); lia.
      * destruct (pad0 f); [do 2 f_equal|f_equal]; f_equal; destruct (nobsdp f); lia.
  - (* Oct *)
    unfold sval in *. assert (a = v) as Ea by (unfold a; lia). cbn [app]. unfold cprintf. cbn [radix]. unfold SG, PR. rewrite EB.
    replace (Z.abs v) with v by lia. cbn [base_of] in *. subst ds. rewrite Ea in *. set (ds := digs 8 v) in *.
    assert (E : atleast (if pcf f then pc f else 1) ds = atleast (LE f) ds) by (rewrite <- PE; destruct (pcf f); reflexivity).
    rewrite E. replace (pad0 f && negb (pcf f) && negb (pcf f)) with (pad0 f && negb (pcf f)) by (destruct (pad0 f), (pcf f); reflexivity).
    destruct (nobsdp f); cbn [negb andb]; [reflexivity|]. destruct (isz (atleast (LE f) ds)); cbn [negb]; [reflexivity|apply field_oct].
  - (* Dec *)
    cbn [app]. unfold cprintf. cbn [radix]. unfold SG, PR. rewrite EB. cbn [base_of] in *. fold (sval Dec v). fold a. fold ds.
    assert (E : atleast (if pcf f then pc f else 1) ds = atleast (LE f) ds) by (rewrite <- PE; destruct (pcf f); reflexivity).
    rewrite E. replace (pad0 f && negb (pcf f) && negb (pcf f)) with (pad0 f && negb (pcf f)) by (destruct (pad0 f), (pcf f); reflexivity).
    destruct (nobsdp f); reflexivity.
  - (* Uns *)
    cbn [app]. unfold cprintf. cbn [radix]. unfold SG, PR. rewrite EB. cbn [base_of] in *. fold a. unfold sval in *. fold a. fold ds.
    assert (E : atleast (if pcf f then pc f else 1) ds = atleast (LE f) ds) by (rewrite <- PE; destruct (pcf f); reflexivity).
    rewrite E. replace (pad0 f && negb (pcf f) && negb (pcf f)) with (pad0 f && negb (pcf f)) by (destruct (pad0 f), (pcf f); reflexivity).
    destruct (nobsdp f); reflexivity.
  - (* Hex *)
    unfold sval in *. assert (a = v) as Ea by (unfold a; lia). unfold cprintf. cbn [radix]. unfold SG, PR. rewrite EB.
    replace (Z.abs v) with v by lia. cbn [base_of] in *. subst ds. rewrite Ea in *. set (ds := digs 16 v) in *.
    assert (E : atleast (if pcf f then pc f else 1) ds = atleast (LE f) ds) by (rewrite <- PE; destruct (pcf f); reflexivity).
    rewrite E. replace (pad0 f && negb (pcf f) && negb (pcf f)) with (pad0 f && negb (pcf f)) by (destruct (pad0 f), (pcf f); reflexivity).
    destruct (nobsdp f) eqn:EN; cbn [negb andb]; [reflexivity|]. destruct (Z.eqb_spec v 0) as [V0|V0]; cbn [negb]; [|reflexivity].
    apply field_hex0; [|rewrite len_atleast; unfold LE; destruct (pcf f); lia].
    assert (LD : (if pcf f then pc f else 1) <= len (atleast (LE f) ds)).
    { rewrite len_atleast. unfold LE. destruct (pcf f); lia. }
    destruct (c_hex0 eq_refl V0) as [Q|[Q|[Q|Q]]]; [congruence|auto|auto|]. right. right. lia.
Qed.

(* -- chunks -- *)

Lemma field_right : forall z w s p d D, 1 <= len d ->
  field false z w s p (d ++ D) = field false z (if w - len D <? 0 then 1 else w - len D) s p d ++ D.
Proof.
  intros z w s p d D H. unfold field. rewrite len_app. pose proof (len_nn s). pose proof (len_nn p).
  assert (E : forall c, rep (w - (len s + len p + (len d + len D))) c = rep ((if w - len D <? 0 then 1 else w - len D) - (len s + len p + len d)) c).
  { intros c. destruct (Z.ltb_spec (w - len D) 0); [rewrite !rep_neg by lia; reflexivity|]. f_equal. lia. }
  rewrite !E. destruct z; rewrite <- !app_assoc; reflexivity.
Qed.

Lemma field_left : forall z z1 w s p d D, 1 <= len d ->
  field true z w s p (d ++ D) = field true z1 1 s p d ++ D ++ rep (w - len d - (len s + len p) - len D) Sp.
Proof.
  intros z z1 w s p d D H. unfold field. rewrite len_app. pose proof (len_nn s). pose proof (len_nn p).
  rewrite (rep_neg (1 - _)) by lia. rewrite app_nil_r, <- !app_assoc. do 4 f_equal. f_equal. lia.
Qed.

Record Par (b : base) (power maxdig bits : Z) : Prop := {
  p_max : 1 <= maxdig;
  p_pow : power = base_of b ^ maxdig;
  p_64 : power <= two64;
  p_128 : two128 <= power * power * power;
  p_bits : match b with Dec | Uns => True | _ => forall x, 0 < x < two64 -> (high1 x + (bits - 1)) / bits = len (digs (base_of b) x) end
}.

Lemma base2 : forall b, 2 <= base_of b.
Proof. destruct b; cbn; lia. Qed.

Lemma chunk_len : forall b power maxdig bits x, Par b power maxdig bits -> 0 <= x < power -> len (digs (base_of b) x) <= maxdig.
Proof.
  intros b power maxdig bits x [] H. pose proof (digs_len (Z.to_nat maxdig) (base_of b) x (base2 b)) as L. rewrite Z2Nat.id in L by lia.
  apply L; [rewrite <- p_pow0; exact H|]. assert (two64 < two128) by reflexivity. lia.
Qed.

Lemma sval_pos : forall b x, 0 <= x -> (b = Dec -> x < two63) -> sval b x = x.
Proof. intros b x H D. unfold sval. destruct b; try reflexivity. specialize (D eq_refl). destruct (Z.ltb_spec x two63); lia. Qed.

Lemma later_right : forall b power maxdig bits x pc1 ng, Par b power maxdig bits -> 0 <= x < power -> (b = Dec -> x < two63) ->
  manip (F maxdig pc1 b false false true false true ng) x = atleast maxdig (digs (base_of b) x).
Proof.
  intros b power maxdig bits x pc1 ng P H D. pose proof (chunk_len _ _ _ _ _ P H) as L. destruct P.
  rewrite manip_ok.
  - cbn [bs]. rewrite (sval_pos b x) by (try assumption; lia). rewrite laid_field. unfold LE, SG, PR. cbn [bs pcf pc left pad0 wd nobsdp sign andb negb].
    replace (match b with Dec => if x <? 0 then [Minus] else [] | _ => [] end) with (@nil ch) by (destruct b; try reflexivity; destruct (Z.ltb_spec x 0); [lia|reflexivity]).
    replace (Z.abs x) with x by lia. unfold field. cbn [app]. change (len []) with 0. rewrite len_atleast. set (ds := digs (base_of b) x) in *.
    unfold atleast. rewrite app_assoc. destruct (Z.le_gt_cases 1 (len ds)).
    + rewrite (rep_neg (1 - len ds)) by lia. rewrite app_nil_r. do 2 f_equal. lia.
    + rewrite <- rep_app by lia. do 2 f_equal. lia.
  - constructor; cbn [bs pcf pc left pad0 wd nobsdp]; try discriminate; auto. lia.
Qed.

Lemma later_left : forall b power maxdig bits x w p0 ng, Par b power maxdig bits -> 0 <= x < power -> (b = Dec -> x < two63) ->
  manip (F w maxdig b true true true false p0 ng) x = atleast maxdig (digs (base_of b) x) ++ rep (w - maxdig) Sp.
Proof.
  intros b power maxdig bits x w p0 ng P H D. pose proof (chunk_len _ _ _ _ _ P H) as L. destruct P.
  rewrite manip_ok.
  - cbn [bs]. rewrite (sval_pos b x) by (try assumption; lia). rewrite laid_field. unfold LE, SG, PR. cbn [bs pcf pc left pad0 wd nobsdp sign andb negb].
    replace (match b with Dec => if x <? 0 then [Minus] else [] | _ => [] end) with (@nil ch) by (destruct b; try reflexivity; destruct (Z.ltb_spec x 0); [lia|reflexivity]).
    replace (Z.abs x) with x by lia. unfold field. cbn [app]. change (len []) with 0. rewrite Z.max_r by lia. rewrite len_atleast. do 2 f_equal. lia.
  - constructor; cbn [bs pcf pc left pad0 wd nobsdp]; try discriminate; auto; [lia|].
    intros -> _. pose proof (Z.le_max_l 1 (len (digs 2 x))). cbn [base_of] in L. lia.
Qed.

Lemma isz_app : forall d D, 1 <= len d -> isz (d ++ D) = isz d.
Proof. intros d D H. destruct d; [cbn in H; lia|reflexivity]. Qed.

Lemma start_ok : forall lg n power maxdig bits o f q c, Par (bs f) power maxdig bits -> 0 <= q <= power -> q < two64 -> 0 <= c -> (0 < c -> 0 < q) ->
  0 <= wd f -> 0 <= pc f -> (pcf f = true -> pad0 f = false) -> (bs f = Dec -> q < two63) -> (neg f = true -> bs f = Dec /\ 0 < q) ->
  (bs f = Bin -> pcf f = true -> maxdig * c < pc f -> len (digs 2 q) <= pc f - maxdig * c) ->
  (bs f = Hex -> q = 0 -> nobsdp f = true \/ left f = true \/ pad0 f = true \/ wd f <= 3) ->
  (left f = true -> 0 < c -> base_of (bs f) = 10 -> lg q = len (digs 10 q)) ->
  exists T W pc1, base_128 lg (S n) power maxdig bits o f q c =
      Some ((if c =? 0 then (fun o => o) else nosep) (emit (separate o) T),
            F W (if left f then maxdig else pc1) (bs f) (left f) (left f) true false (if left f then pad0 f else true) (neg f)) /\
    (left f = false -> W = maxdig) /\
    forall D, len D = maxdig * c ->
      laid_out f (if neg f then - q else q) (digs (base_of (bs f)) q ++ D) = T ++ D ++ (if left f && (0 <? c) then rep (W - len D) Sp else []).
Proof.
  intros lg n power maxdig bits o f q c P HQ Q64 HC CQ HW HP PP HD HN HB HX HL.
  pose proof P as []. cbn [base_128]. destruct (Z.ltb_spec power q); [lia|]. rewrite (Z.mod_small q) by lia.
  set (big := pcf f && (maxdig * c <? pc f)). set (pc1 := if big then pc f - maxdig * c else 0).
  set (y := if neg f then (- q) mod two64 else q).
  assert (Y : 0 <= y < two64 /\ sval (bs f) y = (if neg f then - q else q)).
  { unfold y. destruct (neg f).
    - destruct HN as [EB QP]; [reflexivity|]. rewrite EB. specialize (HD EB). rewrite Z.mod_opp_l_nz; rewrite ?Z.mod_small by lia; try lia.
      unfold sval. unfold two63, two64 in *. destruct (Z.ltb_spec (18446744073709551616 - q) 9223372036854775808); lia.
    - split; [lia|]. apply sval_pos; [lia|exact HD]. }
  destruct Y as [Y1 Y2].
  assert (AB : Z.abs (if neg f then - q else q) = q) by (destruct (neg f); lia).
  assert (LQ : 0 < q -> 1 <= len (digs (base_of (bs f)) q)).
  { intros QP. apply digs_pos; [apply base2|]. assert (two64 < two128) by reflexivity. lia. }
  assert (BG : big = true -> pcf f = true /\ 1 <= pc1) by (unfold pc1, big; destruct (pcf f); cbn [andb]; [|discriminate]; intros E; rewrite E; lia).
  (* the printing of the first chunk *)
  assert (M : forall w0, 0 <= w0 -> (c = 0 -> w0 = wd f) ->
    manip (F w0 pc1 (bs f) big (left f) (nobsdp f) (sign f) (pad0 f) (neg f)) y =
    laid_out (F w0 pc1 (bs f) big (left f) (nobsdp f) (sign f) (pad0 f) (neg f)) (if neg f then - q else q) (digs (base_of (bs f)) q)).
  { intros w0 W0 WC. rewrite manip_ok.
    - cbn [bs]. rewrite Y2, AB. reflexivity.
    - constructor; cbn [bs pcf pc left pad0 wd nobsdp].
      + exact Y1.
      + intros E. left. apply BG. exact E.
      + intros EB E. destruct (BG E) as [E1 E2]. assert (ng : neg f = false) by (destruct (neg f); [destruct HN; congruence|reflexivity]).
        unfold y. rewrite ng. assert (LT : maxdig * c < pc f) by (unfold big in E; lia). specialize (HB EB E1 LT).
        unfold pc1 in *. rewrite E in *. lia.
      + intros EB Y0. assert (ng : neg f = false) by (destruct (neg f); [destruct HN; congruence|reflexivity]).
        unfold y in Y0. rewrite ng in Y0. assert (C0 : c = 0) by (destruct (Z.eq_dec c 0); [assumption|specialize (CQ ltac:(lia)); lia]).
        specialize (HX EB Y0). rewrite (WC C0). destruct HX as [X|[X|[X|X]]]; auto.
        * right. right. left. rewrite X. destruct big eqn:E; [|reflexivity]. destruct (BG eq_refl) as [E1 _]. specialize (PP E1). congruence.
        * right. right. right. destruct big eqn:E; [|lia]. destruct (BG eq_refl). lia. }
  (* precision *)
  assert (PC : forall D, len D = maxdig * c -> (c = 0 -> D = []) ->
    atleast (LE f) (digs (base_of (bs f)) q ++ D) = atleast (if big then Z.max 1 pc1 else 1) (digs (base_of (bs f)) q) ++ D).
  { intros D LD D0. rewrite atleast_app. f_equal. rewrite LD. unfold LE, pc1, big. destruct (Z.eq_dec c 0) as [->|C0].
    - rewrite Z.mul_0_r. destruct (pcf f); cbn [andb]; [|f_equal; lia]. destruct (Z.ltb_spec 0 (pc f)); f_equal; lia.
    - assert (LQ1 : 1 <= len (digs (base_of (bs f)) q)) by (apply LQ, CQ; lia). assert (1 <= maxdig * c) by nia.
      destruct (pcf f); cbn [andb].
      + destruct (Z.ltb_spec (maxdig * c) (pc f)); [f_equal; lia|]. rewrite !atleast_small by lia. reflexivity.
      + rewrite !atleast_small by lia. reflexivity. }
  set (d := atleast (if big then Z.max 1 pc1 else 1) (digs (base_of (bs f)) q)) in *.
  assert (D1 : 1 <= len d) by (unfold d; rewrite len_atleast; destruct big; lia).
  assert (ZR : pad0 f && negb big = pad0 f && negb (pcf f)).
  { unfold big. destruct (pcf f); [|reflexivity]. rewrite PP by reflexivity. reflexivity. }
  destruct (left f) eqn:EL; cbn [negb].
  - (* left *)
    destruct (Z.eqb_spec c 0) as [->|C0]; cbn [negb].
    + eexists _, 1, pc1. split; [reflexivity|]. split; [discriminate|]. intros D LD. rewrite Z.mul_0_r in LD.
      assert (D = []) as -> by (destruct D; [reflexivity|unfold len in LD; cbn in LD; lia]). cbn [Z.ltb Z.compare andb]. rewrite !app_nil_r.
      rewrite M by (try reflexivity; lia). rewrite !laid_field. specialize (PC [] ltac:(rewrite LD; lia) ltac:(reflexivity)). rewrite !app_nil_r in PC. rewrite PC.
      unfold LE, SG, PR. cbn [bs pcf pc left pad0 wd nobsdp sign]. fold d. rewrite EL, ZR. reflexivity.
    + (* its width *)
      set (dig := len (digs (base_of (bs f)) q)).
      set (b := match bs f with
                | Dec => if neg f || sign f then 1 else 0
                | Uns => 0
                | x => if nobsdp f then 0 else match x with Oct => if pc1 <=? dig then 1 else 0 | _ => 2 end
                end).
      set (w := wd f - (if dig <? pc1 then pc1 else dig) - b).
      assert (QP : 0 < q) by (apply CQ; lia). specialize (LQ QP). fold dig in LQ.
      exists (laid_out (F 1 pc1 (bs f) big true (nobsdp f) (sign f) (pad0 f) (neg f)) (if neg f then - q else q) (digs (base_of (bs f)) q)).
      exists (if w <? 0 then 1 else w), pc1.
      assert (X : match bs f with
                  | Dec | Uns => (lg q, if match bs f with Dec => neg f || sign f | _ => false end then 1 else 0)
                  | _ => ((high1 q + (bits - 1)) / bits,
                          if nobsdp f then 0 else match bs f with Oct => if pc1 <=? (high1 q + (bits - 1)) / bits then 1 else 0 | _ => 2 end)
                  end = (dig, b)).
      { unfold b, dig. destruct (bs f) eqn:EB; try (rewrite p_bits0 by lia; reflexivity); rewrite HL by (try reflexivity; lia); reflexivity. }
      split; [|split; [discriminate|]].
      * rewrite <- (M 1) by lia. fold y.
        destruct (bs f); cbv zeta in X |- *; assert (X1 := f_equal fst X); assert (X2 := f_equal snd X); cbn [fst snd] in X1, X2; rewrite ?X1 in *; rewrite ?X2; unfold w; rewrite ?X1, ?X2; reflexivity.
      * intros D LD. assert (0 <? c = true) as -> by lia. cbn [andb]. rewrite !laid_field. rewrite PC by (try assumption; lia).
        rewrite EL. unfold LE. cbn [bs pcf pc left pad0 wd nobsdp sign]. fold d.
        rewrite (field_left _ (pad0 f && negb big)) by exact D1. f_equal.
        -- unfold SG, PR. cbn [bs nobsdp sign]. rewrite isz_app by exact D1. reflexivity.
        -- f_equal. assert (LDm : 1 <= len D) by nia.
           assert (W : wd f - len d - (len (SG f (if neg f then - q else q)) + len (PR f (d ++ D))) = w).
           { assert (Ed : len d = if dig <? pc1 then pc1 else dig).
             { unfold d. rewrite len_atleast. fold dig. unfold pc1 in *. destruct big; [|destruct (Z.ltb_spec dig 0); lia].
               destruct (BG eq_refl). destruct (Z.ltb_spec dig (pc f - maxdig * c)); lia. }
             assert (Eb : len (SG f (if neg f then - q else q)) + len (PR f (d ++ D)) = b).
             { unfold SG, PR, b. rewrite isz_app by exact D1. destruct (bs f) eqn:EB.
               - destruct (nobsdp f); reflexivity.
               - destruct (nobsdp f); [reflexivity|]. change (len []) with 0. rewrite Z.add_0_l.
                 (* a leading zero iff the precision exceeds the digits *)
                 unfold d. fold dig. destruct (Z.leb_spec pc1 dig) as [G|G].
                 + rewrite atleast_small by (fold dig; destruct big; lia).
                   destruct (digs_numeral (base_of Oct) q ltac:(cbn; lia)) as (_ & _ & NZ); [assert (two64 < two128) by reflexivity; lia|].
                   unfold dig, len in LQ. cbn [base_of] in *. destruct (digs 8 q) as [|x l]; [cbn in LQ; lia|].
                   destruct x as [| | | | | |x]; try reflexivity. cbn [isz]. destruct (Z.eqb_spec x 0); [congruence|reflexivity].
                 + destruct big eqn:E; [|unfold pc1 in G; lia]. unfold atleast. fold dig.
                   unfold rep. replace (Z.to_nat (Z.max 1 pc1 - dig)) with (S (Z.to_nat (Z.max 1 pc1 - dig - 1))) by lia. reflexivity.
               - destruct (neg f); [assert (- q <? 0 = true) as -> by lia; destruct (nobsdp f); reflexivity|].
                 assert (q <? 0 = false) as -> by lia. destruct (sign f), (nobsdp f); reflexivity.
               - destruct (nobsdp f); reflexivity.
               - destruct (nobsdp f); reflexivity. }
             unfold w. rewrite Ed, Eb. reflexivity. }
           rewrite W. destruct (Z.ltb_spec w 0); [rewrite !rep_neg by lia; reflexivity|reflexivity].
  - (* right *)
    set (w0 := if wd f - maxdig * c <? 0 then 1 else wd f - maxdig * c).
    exists (manip (F w0 pc1 (bs f) big false (nobsdp f) (sign f) (pad0 f) (neg f)) y), maxdig, pc1. split; [destruct (c =? 0); reflexivity|]. split; [reflexivity|]. intros D LD. cbn [andb]. rewrite app_nil_r.
    fold y. rewrite M.
    + rewrite !laid_field. rewrite PC.
      * unfold LE. cbn [bs pcf pc left pad0 wd nobsdp sign]. rewrite EL. fold d. rewrite field_right by exact D1.
        rewrite LD. fold w0. f_equal. unfold SG, PR. cbn [bs nobsdp sign]. rewrite isz_app by exact D1. rewrite ZR. reflexivity.
      * exact LD.
      * intros ->. rewrite Z.mul_0_r in LD. destruct D; [reflexivity|unfold len in LD; cbn in LD; lia].
    + unfold w0. destruct (Z.ltb_spec (wd f - maxdig * c) 0); lia.
    + intros ->. unfold w0. rewrite Z.mul_0_r, Z.sub_0_r. destruct (Z.ltb_spec (wd f) 0); lia.
Qed.

Lemma digs_div : forall b power maxdig bits v, Par b power maxdig bits -> 0 <= v < two128 -> power <= v ->
  digs (base_of b) v = digs (base_of b) (v / power) ++ atleast maxdig (digs (base_of b) (v mod power)).
Proof.
  intros b power maxdig bits v P H L. pose proof P as []. pose proof (base2 b) as B.
  assert (PP : 0 < power) by (rewrite p_pow0; apply Z.pow_pos_nonneg; lia).
  pose proof (digs_split (Z.to_nat maxdig) (base_of b) (v / power) (v mod power) B) as X. rewrite Z2Nat.id in X by lia. rewrite <- p_pow0 in X.
  pose proof (Z.div_mod v power ltac:(lia)) as DM. replace (v / power * power + v mod power) with v in X by lia.
  apply X; [|apply Z.mod_pos_bound; lia|lia]. apply Z.div_str_pos. lia.
Qed.

Lemma laid_sign : forall f v v' ds, (v <? 0) = (v' <? 0) -> laid_out f v ds = laid_out f v' ds.
Proof. intros f v v' ds E. rewrite !laid_field. unfold SG. rewrite E. reflexivity. Qed.

Definition Cond (lg : Z -> Z) (f : fmtf) (maxdig q c : Z) : Prop :=
  q < two64 /\ (bs f = Dec -> q < two63) /\
  (bs f = Bin -> pcf f = true -> maxdig * c < pc f -> len (digs 2 q) <= pc f - maxdig * c) /\
  (bs f = Hex -> q = 0 -> nobsdp f = true \/ left f = true \/ pad0 f = true \/ wd f <= 3) /\
  (left f = true -> 0 < c -> base_of (bs f) = 10 -> lg q = len (digs 10 q)).

Lemma base_S : forall lg n power maxdig bits o f v cnt, power < v -> base_128 lg (S n) power maxdig bits o f v cnt =
  match base_128 lg n power maxdig bits o f (v / power) (cnt + 1) with
  | None => None
  | Some (o, f) =>
      let x := (v mod power) mod two64 in
      let adj := (cnt =? 1) && left f in
      let w := wd f in
      let f1 := if adj then F maxdig (pc f) (bs f) (pcf f) (left f) (nobsdp f) (sign f) (pad0 f) (neg f) else f in
      let o := print64 o f1 x in
      let w1 := w - maxdig in
      Some (if cnt =? 1 then nosep o else o,
            if adj then F (if w1 <? 0 then 1 else w1) (pc f) (bs f) (pcf f) (left f) (nobsdp f) (sign f) (pad0 f) (neg f) else f)
  end.
Proof. intros. cbn [base_128]. destruct (Z.ltb_spec power v); [reflexivity|lia]. Qed.

Lemma txt_start : forall o T, txt (emit (separate o) T) = txt o ++ (if son o then [Sepr] else []) ++ T.
Proof. intros [t s d] T. unfold separate, emit. destruct s; cbn; rewrite <- ?app_assoc; reflexivity. Qed.
Lemma dflt_start : forall o T, dflt (emit (separate o) T) = dflt o.
Proof. intros [t s d] T. unfold separate, emit. destruct s; reflexivity. Qed.
Lemma emit_start : forall o T, emit (separate o) T = St (txt o ++ (if son o then [Sepr] else []) ++ T) (dflt o) (dflt o).
Proof. intros [t s d] T. unfold separate, emit. destruct s; cbn; rewrite <- ?app_assoc; reflexivity. Qed.

Lemma atleast_len : forall b power maxdig bits x, Par b power maxdig bits -> 0 <= x < power -> len (atleast maxdig (digs (base_of b) x)) = maxdig.
Proof. intros. rewrite len_atleast. pose proof (chunk_len _ _ _ _ _ H H0). lia. Qed.

Lemma base_ok : forall lg power maxdig bits o f v, Par (bs f) power maxdig bits -> 0 <= v < two128 ->
  0 <= wd f -> 0 <= pc f -> (pcf f = true -> pad0 f = false) -> (neg f = true -> bs f = Dec /\ 0 < v) ->
  (v <= power -> Cond lg f maxdig v 0) ->
  (power < v -> v / power <= power -> Cond lg f maxdig (v / power) 1) ->
  (power < v / power -> Cond lg f maxdig (v / power / power) 2) ->
  (bs f = Dec -> power < v -> v mod power < two63) -> (bs f = Dec -> power < v / power -> v / power mod power < two63) ->
  fst_ (base_128 lg 4 power maxdig bits o f v 0) =
  Some (St (txt o ++ (if son o then [Sepr] else []) ++ laid_out f (if neg f then - v else v) (digs (base_of (bs f)) v)) (dflt o) (dflt o)).
Proof.
  intros lg power maxdig bits o f v P HV HW HP PP HN C0 C1 C2 D1 D2. pose proof P as []. pose proof (base2 (bs f)) as B.
  assert (PW : 0 < power) by (rewrite p_pow0; apply Z.pow_pos_nonneg; lia).
  assert (NG : forall q, (0 < v -> 0 < q) -> 0 <= q -> ((if neg f then - q else q) <? 0) = ((if neg f then - v else v) <? 0)).
  { intros q Q1 Q2. destruct (neg f); [destruct HN; [reflexivity|]; specialize (Q1 ltac:(lia)); lia|lia]. }
  destruct (Z.le_gt_cases v power) as [V0|V0].
  { destruct (C0 V0) as (Q & A1 & A2 & A3 & A4).
    destruct (start_ok lg 3 power maxdig bits o f v 0 P ltac:(lia) Q ltac:(lia) ltac:(lia) HW HP PP A1 HN A2 A3 A4) as (T & W & pc1 & E & _ & L).
    rewrite E. cbn [fst_ Z.eqb]. specialize (L []). rewrite Z.mul_0_r in L. specialize (L eq_refl). cbn [Z.ltb Z.compare] in L. rewrite andb_false_r, !app_nil_r in L. rewrite L.
    rewrite emit_start. reflexivity. }
  assert (Q1 : 0 < v / power) by (apply Z.div_str_pos; lia).
  assert (X0 : 0 <= v mod power < power) by (apply Z.mod_pos_bound; lia).
  set (d0 := atleast maxdig (digs (base_of (bs f)) (v mod power))).
  assert (L0 : len d0 = maxdig) by (apply (atleast_len _ power maxdig bits); assumption).
  assert (DV : digs (base_of (bs f)) v = digs (base_of (bs f)) (v / power) ++ d0) by (apply (digs_div _ power maxdig bits); [exact P|lia|lia]).
  rewrite base_S by lia. rewrite Z.add_0_l.
  destruct (Z.le_gt_cases (v / power) power) as [V1|V1].
  { destruct (C1 ltac:(lia) V1) as (Q & A1 & A2 & A3 & A4).
    destruct (start_ok lg 2 power maxdig bits o f (v / power) 1 P ltac:(lia) Q ltac:(lia) ltac:(lia) HW HP PP A1 (fun e => conj (proj1 (HN e)) Q1) A2 A3 A4) as (T & W & pc1 & E & WE & L).
    rewrite E. cbn [Z.eqb Pos.eqb andb fst_]. cbv zeta. rewrite (Z.mod_small (v mod power)) by lia.
    specialize (L d0). rewrite Z.mul_1_r in L. specialize (L L0). cbn [Z.ltb Z.compare] in L. rewrite andb_true_r in L. rewrite L0 in L.
    rewrite (laid_sign f _ (if neg f then - (v / power) else v / power)) by (symmetry; apply NG; lia). rewrite DV, L.
    unfold print64. rewrite emit_start. rewrite (emit_start o T). unfold nosep. cbn [txt son dflt]. rewrite app_nil_l, <- !app_assoc. do 4 f_equal.
    f_equal. destruct (left f) eqn:EL.
    - rewrite (later_left _ power maxdig bits) by auto. reflexivity.
    - rewrite WE by reflexivity. rewrite (later_right _ power maxdig bits) by auto. rewrite app_nil_r. reflexivity. }
  assert (Q2 : 0 < v / power / power) by (apply Z.div_str_pos; lia).
  assert (X1 : 0 <= v / power mod power < power) by (apply Z.mod_pos_bound; lia).
  set (d1 := atleast maxdig (digs (base_of (bs f)) (v / power mod power))).
  assert (L1 : len d1 = maxdig) by (apply (atleast_len _ power maxdig bits); assumption).
  assert (VL : v / power <= v) by (apply Z.div_le_upper_bound; nia).
  assert (DV1 : digs (base_of (bs f)) (v / power) = digs (base_of (bs f)) (v / power / power) ++ d1) by (apply (digs_div _ power maxdig bits); [exact P|lia|lia]).
  assert (QP : v / power / power <= power).
  { apply Z.div_le_upper_bound; [lia|]. apply Z.div_le_upper_bound; [lia|]. nia. }
  rewrite base_S by lia. change (1 + 1) with 2.
  destruct (C2 V1) as (Q & A1 & A2 & A3 & A4).
  destruct (start_ok lg 1 power maxdig bits o f (v / power / power) 2 P ltac:(lia) Q ltac:(lia) ltac:(lia) HW HP PP A1 (fun e => conj (proj1 (HN e)) Q2) A2 A3 A4) as (T & W & pc1 & E & WE & L).
  rewrite E. cbn [Z.eqb Pos.eqb andb fst_]. cbv zeta. cbn [left wd pc bs pcf nobsdp sign pad0 neg]. rewrite (Z.mod_small (v mod power)), (Z.mod_small (v / power mod power)) by lia.
  specialize (L (d1 ++ d0)). rewrite len_app in L. specialize (L ltac:(lia)). cbn [Z.ltb Z.compare] in L. rewrite andb_true_r in L. rewrite L0, L1 in L.
  rewrite (laid_sign f _ (if neg f then - (v / power / power) else v / power / power)) by (symmetry; apply NG; lia). rewrite DV, DV1, <- app_assoc, L.
  unfold print64. rewrite !emit_start. unfold nosep. cbn [txt son dflt]. rewrite !app_nil_l, <- !app_assoc. do 5 f_equal.
  destruct (left f) eqn:EL; cbn [andb]; cbn [left wd pc bs pcf nobsdp sign pad0 neg].
  - rewrite !(later_left _ power maxdig bits) by auto. fold d0 d1. rewrite (rep_neg (maxdig - maxdig)) by lia. rewrite app_nil_r. do 2 f_equal.
    destruct (Z.ltb_spec (W - maxdig) 0); [rewrite !rep_neg by lia; reflexivity|]. f_equal. lia.
  - rewrite WE by reflexivity. rewrite !(later_right _ power maxdig bits) by auto. rewrite app_nil_r. reflexivity.
Qed.

Lemma par_bits : forall k b, base_of b = 2 ^ k -> 1 <= k -> forall x, 0 < x < two64 -> (high1 x + (k - 1)) / k = len (digs (base_of b) x).
Proof.
  intros k b E K x H. symmetry. apply digs_exact; [apply base2|assert (two64 < two128) by reflexivity; lia|].
  unfold high1. destruct (Z.leb_spec x 0); [lia|]. pose proof (Z.log2_spec x ltac:(lia)) as [S1 S2]. pose proof (Z.log2_nonneg x) as S3.
  set (l := Z.log2 x) in *. set (d := (l + 1 + (k - 1)) / k).
  pose proof (Z.div_mod (l + 1 + (k - 1)) k ltac:(lia)) as DM. pose proof (Z.mod_pos_bound (l + 1 + (k - 1)) k ltac:(lia)) as MB. fold d in DM.
  assert (1 <= d) by nia. rewrite E, <- !Z.pow_mul_r by lia. split.
  - apply Z.le_trans with (2 ^ l); [|exact S1]. apply Z.pow_le_mono_r; lia.
  - apply Z.lt_le_trans with (2 ^ (Z.succ l)); [exact S2|]. apply Z.pow_le_mono_r; lia.
Qed.

Lemma par_bin : Par Bin two64 64 1.
Proof. constructor; try reflexivity; try lia; try discriminate. apply par_bits; [reflexivity|lia]. Qed.
Lemma par_oct : Par Oct two63 21 3.
Proof. constructor; try reflexivity; try lia; try discriminate. apply par_bits; [reflexivity|lia]. Qed.
Lemma par_hex : Par Hex two64 16 4.
Proof. constructor; try reflexivity; try lia; try discriminate. apply par_bits; [reflexivity|lia]. Qed.
Lemma par_dec : Par Dec p10 19 0.
Proof. constructor; try reflexivity; try lia; try discriminate; exact I. Qed.
Lemma par_uns : Par Uns p10 19 0.
Proof. constructor; try reflexivity; try lia; try discriminate; exact I. Qed.

Lemma lg_len : forall lg q, 0 < q < two128 -> 10 ^ (lg q - 1) <= q < 10 ^ lg q -> lg q = len (digs 10 q).
Proof. intros lg q H L. symmetry. apply digs_exact; [lia|exact H|exact L]. Qed.

Lemma bin_len : forall v n, 0 <= v < two128 -> 0 <= n -> v < 2 ^ n -> len (digs 2 v) <= n.
Proof. intros v n H N L. pose proof (digs_len (Z.to_nat n) 2 v ltac:(lia)) as X. rewrite Z2Nat.id in X by lia. apply X; lia. Qed.

Lemma dec_conds : forall lg f a, 0 <= a < two128 -> base_of (bs f) = 10 ->
  (bs f = Dec -> small_parts a) -> (left f = true -> 10 ^ 19 < a -> 10 ^ (lg (head10 a) - 1) <= head10 a < 10 ^ lg (head10 a)) ->
  (a <= p10 -> Cond lg f 19 a 0) /\ (p10 < a -> a / p10 <= p10 -> Cond lg f 19 (a / p10) 1) /\
  (p10 < a / p10 -> Cond lg f 19 (a / p10 / p10) 2) /\
  (bs f = Dec -> p10 < a -> a mod p10 < two63) /\ (bs f = Dec -> p10 < a / p10 -> a / p10 mod p10 < two63).
Proof.
  intros lg f a H E SP L. unfold small_parts, head10 in *. change (10 ^ 19) with p10 in *. change (2 ^ 63) with two63 in *.
  assert (NB : forall X : Prop, bs f = Bin -> X) by (intros X Y; rewrite Y in E; discriminate).
  assert (NH : forall X : Prop, bs f = Hex -> X) by (intros X Y; rewrite Y in E; discriminate).
  assert (P64 : p10 < two64) by reflexivity. assert (P0 : 0 < p10) by reflexivity. assert (P128 : p10 * p10 * p10 > two128) by reflexivity.
  assert (DL : a / p10 <= a) by (apply Z.div_le_upper_bound; nia).
  split; [|split; [|split; [|split]]].
  - intros A. destruct (Z.leb_spec a p10); [|lia]. split; [lia|]. split; [intros D; apply (SP D)|]. split; [intros D; apply NB, D|]. split; [intros D; apply NH, D|]. intros _ ?; lia.
  - intros A A1. destruct (Z.leb_spec a p10); [lia|]. destruct (Z.leb_spec (a / p10) p10); [|lia]. assert (0 < a / p10) by (apply Z.div_str_pos; lia).
    split; [lia|]. split; [intros D; apply (SP D)|]. split; [intros D; apply NB, D|]. split; [intros D; apply NH, D|]. intros F1 _ _. apply lg_len; [lia|apply L; [exact F1|lia]].
  - intros A1. destruct (Z.leb_spec a p10); [lia|]. destruct (Z.leb_spec (a / p10) p10); [lia|]. assert (0 < a / p10 / p10) by (apply Z.div_str_pos; lia).
    assert (a / p10 / p10 < p10) by (apply Z.div_lt_upper_bound; [lia|]; apply Z.div_lt_upper_bound; nia).
    split; [lia|]. split; [intros D; apply (SP D)|]. split; [intros D; apply NB, D|]. split; [intros D; apply NH, D|]. intros F1 _ _. apply lg_len; [lia|apply L; [exact F1|lia]].
  - intros D A. apply (SP D). exact A.
  - intros D A. apply (SP D). change (10 ^ 38) with (p10 * p10). pose proof (Z.div_mod a p10 ltac:(lia)). pose proof (Z.mod_pos_bound a p10 ltac:(lia)). nia.
Qed.

Lemma laid_neg : forall w p b pf l nb s z n n' v ds, laid_out (F w p b pf l nb s z n) v ds = laid_out (F w p b pf l nb s z n') v ds.
Proof. reflexivity. Qed.

Lemma print128_ok : forall lg o f v, in_range (bs f) v -> good lg f v ->
  print128 lg o f v = Some (St (txt o ++ (if son o then [Sepr] else []) ++ laid_out f v (digs (base_of (bs f)) (Z.abs v))) (dflt o) (dflt o)).
Proof.
  intros lg o f v R (HW & HP & HN & PP & G). unfold print128, in_range in *. change (2 ^ 127) with two127 in R. change (2 ^ 128) with two128 in R.
  change (2 ^ 64) with two64 in G. assert (Q64 : 0 < two64) by reflexivity. assert (Q63 : 0 < two63) by reflexivity. assert (QQ : two64 * two64 = two128) by reflexivity.
  assert (Q7 : two127 < two128) by reflexivity.
  destruct (bs f) eqn:EB; cbn [base_of] in *.
  - replace (Z.abs v) with v by lia. rewrite Z.mod_small by lia. destruct G as [G1 G2].
    assert (VQ : v / two64 < two64) by (apply Z.div_lt_upper_bound; lia). assert (VP : 0 <= v / two64) by (apply Z.div_pos; lia).
    rewrite base_ok; rewrite ?HN, ?EB; try assumption; try discriminate; try lia; try reflexivity; [apply par_bin| |].
    + intros A. unfold Cond. rewrite EB. split; [lia|]. split; [discriminate|]. split; [|split; [discriminate|discriminate]]. intros _ F1 _. rewrite Z.mul_0_r, Z.sub_0_r. apply bin_len; auto.
    + intros A A1. unfold Cond. rewrite EB. split; [lia|]. split; [discriminate|]. split; [|split; [discriminate|discriminate]]. intros _ F1 F2. rewrite Z.mul_1_r in *.
      apply bin_len; [lia|lia|]. apply Z.div_lt_upper_bound; [lia|]. change two64 with (2 ^ 64). rewrite <- Z.pow_add_r by lia. replace (64 + (pc f - 64)) with (pc f) by lia. auto.
  - replace (Z.abs v) with v by lia. rewrite Z.mod_small by lia.
    assert (C : forall q c, q < two64 -> Cond lg f 21 q c) by (intros q c QL; unfold Cond; rewrite EB; cbn [base_of]; repeat split; try assumption; discriminate).
    assert (two63 < two64) by reflexivity. assert (two128 < two63 * (two63 * two64)) by reflexivity.
    rewrite base_ok; rewrite ?HN, ?EB; try assumption; try discriminate; try lia; try reflexivity; [apply par_oct| | |]; intros; apply C; try lia.
    apply Z.div_lt_upper_bound; [lia|]. apply Z.div_lt_upper_bound; lia.
  - destruct G as [G1 G2]. destruct (Z.eqb_spec v (- two127)); [lia|].
    destruct f as [w p b pf l nb s z ng]. cbn [wd pc bs pcf left nobsdp sign pad0 neg] in *. subst b ng.
    pose proof (fun g : bool => dec_conds lg (F w p Dec pf l nb s z g) (Z.abs v) ltac:(lia) eq_refl (fun _ => G1) G2) as D.
    destruct (Z.ltb_spec v 0).
    + destruct (D true) as (D0 & D1 & D2 & D3 & D4).
      rewrite base_ok; cbn [wd pc bs pcf left nobsdp sign pad0 neg]; try assumption; try lia; [|apply par_dec|intros _; split; [reflexivity|lia]].
      replace (- Z.abs v) with v by lia. rewrite (laid_neg w p Dec pf l nb s z false true). reflexivity.
    + destruct (D false) as (D0 & D1 & D2 & D3 & D4).
      rewrite base_ok; cbn [wd pc bs pcf left nobsdp sign pad0 neg]; try assumption; try lia; try discriminate; [|apply par_dec].
      replace (Z.abs v) with v by lia. reflexivity.
  - replace (Z.abs v) with v by lia. rewrite Z.mod_small by lia.
    destruct (dec_conds lg f v ltac:(lia)) as (D0 & D1 & D2 & D3 & D4); rewrite ?EB; try reflexivity; try discriminate; [exact G|].
    rewrite base_ok; rewrite ?HN, ?EB; try assumption; try discriminate; try lia; try reflexivity. apply par_uns.
  - replace (Z.abs v) with v by lia. rewrite Z.mod_small by lia. destruct G as [G1 G2].
    assert (VQ : v / two64 < two64) by (apply Z.div_lt_upper_bound; lia).
    rewrite base_ok; rewrite ?HN, ?EB; try assumption; try discriminate; try lia; try reflexivity; [apply par_hex| |].
    + intros A. unfold Cond. rewrite EB. split; [lia|]. split; [discriminate|]. split; [discriminate|]. split; [intros _; exact G2|discriminate].
    + intros A A1. unfold Cond. rewrite EB. split; [lia|]. split; [discriminate|]. split; [discriminate|]. split; [|discriminate].
      intros _ Q0. assert (0 < v / two64) by (apply Z.div_str_pos; lia). lia.
Qed.
