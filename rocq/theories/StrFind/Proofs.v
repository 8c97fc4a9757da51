From Coq Require Import ZArith Znumtheory List Bool Lia ZifyBool.
From Verif.StrFind Require Import Model Spec.
Import ListNotations.
Open Scope Z_scope.

Lemma nth_skip : forall (s : list Z) i c, nth_error s i = Some c -> skipn i s = c :: skipn (S i) s.
Proof. induction s as [|x s IH]; intros [|i] c H; cbn [nth_error] in H; try discriminate. - injection H as ->. reflexivity. - cbn [skipn]. rewrite (IH i c H). reflexivity. Qed.
Lemma load_ok : forall s i, (i < length s)%nat -> exists c, load s i = Val c /\ skipn i s = c :: skipn (S i) s.
Proof.
  intros s i H. unfold load. destruct (nth_error s i) eqn:E.
  - exists z. split; auto. apply nth_skip; auto.
  - apply nth_error_None in E. lia.
Qed.
(** memcmp of equal-length windows, in terms of the windows *)
Lemma memcmp_ok : forall n s i t j, (i + n <= length s)%nat -> (j + n <= length t)%nat ->
  exists r, memcmp s i t j n = Val r /\ (r = 0 <-> firstn n (skipn i s) = firstn n (skipn j t)) /\
    (forall a b, r < 0 -> before (firstn n (skipn i s) ++ a) (firstn n (skipn j t) ++ b)) /\
    (forall a b, r > 0 -> before (firstn n (skipn j t) ++ a) (firstn n (skipn i s) ++ b)).
Proof.
  induction n as [|n IH]; intros s i t j Hi Hj; cbn [memcmp].
  - exists 0. cbn [firstn]. split; auto. split; [tauto|]. split; intros; lia.
  - destruct (load_ok s i) as [a [La Sa]]; [lia|]. destruct (load_ok t j) as [b [Lb Sb]]; [lia|].
    rewrite La, Lb. cbn [bind]. rewrite Sa, Sb. cbn [firstn].
    destruct (Z.eqb_spec a b) as [->|N].
    + destruct (IH s (S i) t (S j)) as [r [E [E0 [E1 E2]]]]; try lia. exists r. split; auto. split.
      * rewrite E0. split; [intros ->; auto|congruence].
      * cbn [app]. split; intros; apply before_eq; auto.
    + exists (a - b). split; auto. split; [split; [lia|congruence]|]. cbn [app]. split; intros; apply before_lt; lia.
Qed.
Lemma before_irrefl : forall a, ~ before a a.
Proof. induction a; intros H; inversion H; subst; auto; lia. Qed.
Lemma before_trans : forall a b c, before a b -> before b c -> before a c.
Proof.
  intros a b c H. revert c. induction H; intros c K; inversion K; subst; try (apply before_nil); try (apply before_lt; lia).
  apply before_eq. auto.
Qed.
Lemma before_total : forall a b, before a b \/ a = b \/ before b a.
Proof.
  induction a as [|x a IH]; intros [|y b]; auto; try (left; constructor; fail); try (right; right; constructor; fail).
  destruct (Z.lt_total x y) as [L|[->|L]].
  - left. constructor; auto.
  - destruct (IH b) as [?|[->|?]]; [left; apply before_eq; auto|right; left; auto|right; right; apply before_eq; auto].
  - right; right. constructor. lia.
Qed.
Lemma before_app : forall a x b, before a (a ++ x :: b).
Proof. induction a; intros; cbn [app]; [apply before_nil|apply before_eq]; auto. Qed.
Lemma to_int_id : forall x, - 2 ^ 31 <= x < 2 ^ 31 -> to_int x = x.
Proof. intros. unfold to_int. rewrite Z.mod_small; lia. Qed.
Lemma to_size_id : forall x, 0 <= x < 2 ^ 64 -> to_size x = x.
Proof. intros. unfold to_size. apply Z.mod_small. auto. Qed.
Lemma to_int_size : forall x, to_int (to_size x) = to_int x.
Proof.
  intros. unfold to_int, to_size. f_equal. rewrite <- (Zplus_mod_idemp_l x), <- (Zplus_mod_idemp_l (x mod 2 ^ 64)).
  f_equal. f_equal. symmetry. apply Zmod_div_mod; try lia. exists (2 ^ 32). reflexivity.
Qed.
Lemma strcmpl_ok : forall a b l1 l2, (l1 <= length a)%nat -> (l2 <= length b)%nat ->
  - 2 ^ 31 < Z.of_nat l1 - Z.of_nat l2 < 2 ^ 31 -> exists r, strcmpl a l1 b l2 = Val r /\
  (r < 0 <-> before (firstn l1 a) (firstn l2 b)) /\ (r = 0 <-> firstn l1 a = firstn l2 b) /\ (0 < r <-> before (firstn l2 b) (firstn l1 a)).
Proof.
  intros a b l1 l2 H1 H2 D. unfold strcmpl. set (m := Nat.min l1 l2).
  destruct (memcmp_ok m a 0 b 0) as [r [E [E0 [E1 E2]]]]; try (subst m; lia). rewrite E. cbn [bind].
  rewrite to_int_size, to_int_id by lia. cbn [skipn] in *.
  assert (SA : firstn l1 a = firstn m a ++ skipn m (firstn l1 a)).
  { rewrite <- (firstn_skipn m (firstn l1 a)) at 1. rewrite firstn_firstn. f_equal. f_equal. subst m. lia. }
  assert (SB : firstn l2 b = firstn m b ++ skipn m (firstn l2 b)).
  { rewrite <- (firstn_skipn m (firstn l2 b)) at 1. rewrite firstn_firstn. f_equal. f_equal. subst m. lia. }
  set (u := firstn l1 a) in *. set (v := firstn l2 b) in *.
  assert (LU : length u = l1) by (apply firstn_length_le; auto). assert (LV : length v = l2) by (apply firstn_length_le; auto).
  assert (X : forall z : Z, (z < 0 -> before u v) -> (z = 0 -> u = v) -> (0 < z -> before v u) ->
    (z < 0 <-> before u v) /\ (z = 0 <-> u = v) /\ (0 < z <-> before v u)).
  { intros z A B C. destruct (Z.lt_total z 0) as [L|[L|L]].
    - specialize (A L). assert (u <> v) by (intros ->; apply (before_irrefl _ A)).
      assert (~ before v u) by (intros K; apply (before_irrefl u); apply before_trans with v; auto). intuition lia.
    - specialize (B L). rewrite B. pose proof (before_irrefl v). intuition lia.
    - specialize (C L). assert (u <> v) by (intros ->; apply (before_irrefl _ C)).
      assert (~ before u v) by (intros K; apply (before_irrefl u); apply before_trans with v; auto). intuition lia. }
  destruct (Z.eqb_spec r 0) as [R|R]; cbn [negb].
  - exists (Z.of_nat l1 - Z.of_nat l2). split; auto. rewrite (proj1 E0 R) in SA. apply X; intros Q.
    + rewrite SA, SB. assert (Y : skipn m u = []) by (apply length_zero_iff_nil; rewrite skipn_length; subst m; lia).
      rewrite Y, app_nil_r. destruct (skipn m v) eqn:Y2; [apply (f_equal (@length Z)) in Y2; rewrite skipn_length in Y2; cbn [length] in Y2; subst m; lia|].
      apply before_app.
    + rewrite SA, SB. f_equal. transitivity (@nil Z); [|symmetry]; apply length_zero_iff_nil; rewrite skipn_length; subst m; lia.
    + rewrite SA, SB. assert (Y : skipn m v = []) by (apply length_zero_iff_nil; rewrite skipn_length; subst m; lia).
      rewrite Y, app_nil_r. destruct (skipn m u) eqn:Y2; [apply (f_equal (@length Z)) in Y2; rewrite skipn_length in Y2; cbn [length] in Y2; subst m; lia|].
      apply before_app.
  - exists r. split; auto. apply X; intros Q; [|lia|]; rewrite SA, SB; auto with zarith.
Qed.

(** occurrences as windows *)
Lemma occurs_window : forall s key i, (length key <= length s - i)%nat -> (i <= length s)%nat ->
  (occurs s key i <-> firstn (length key) (skipn i s) = key).
Proof.
  intros s key i H Hi. split.
  - intros (a & b & -> & L). subst i. rewrite skipn_app, skipn_all, Nat.sub_diag. cbn [app skipn].
    rewrite firstn_app, firstn_all, Nat.sub_diag. cbn [firstn]. apply app_nil_r.
  - intros E. exists (firstn i s), (skipn (length key) (skipn i s)). split.
    + rewrite <- E at 1. rewrite firstn_skipn, firstn_skipn. auto.
    + apply firstn_length_le. auto.
Qed.
Lemma occurs_len : forall s key i, occurs s key i -> (i + length key <= length s)%nat.
Proof. intros s key i (a & b & -> & <-). rewrite !app_length. lia. Qed.
Lemma matched_ok : forall n key s i j, (j + n <= length key)%nat -> (i + (j + n) <= length s)%nat ->
  exists b : bool, matched key s i j n = Val b /\ (b = true <-> firstn n (skipn j key) = firstn n (skipn (i + j) s)).
Proof.
  induction n as [|n IH]; intros key s i j Hj Hi; cbn [matched].
  - exists true. cbn [firstn]. tauto.
  - destruct (load_ok key j) as [a [La Sa]]; [lia|]. destruct (load_ok s (i + j)) as [b [Lb Sb]]; [lia|].
    rewrite La, Lb. cbn [bind]. rewrite Sa, Sb. cbn [firstn]. destruct (Z.eqb_spec a b) as [->|N]; cbn [negb].
    + destruct (IH key s i (S j)) as [r [E E0]]; try lia. exists r. split; auto. rewrite E0.
      replace (i + S j)%nat with (S (i + j)) by lia. split; [intros ->; auto|congruence].
    + exists false. split; auto. split; congruence.
Qed.
Lemma scan_ok : forall n s key i, (0 < length key)%nat -> n = (length s - i)%nat -> exists v,
  scan s key i n = Val (to_int v) /\ least_from s key i v.
Proof.
  induction n as [|n IH]; intros s key i K N; cbn [scan].
  - exists (lnth s). split; auto. right. split; auto. intros j Hj O. apply occurs_len in O. lia.
  - destruct (Nat.ltb_spec (length s - i) (length key)) as [L|L].
    + exists (lnth s). split; auto. right. split; auto. intros j Hj O. apply occurs_len in O. lia.
    + destruct (matched_ok (length key) key s i 0) as [b [E E0]]; try lia. rewrite E. cbn [bind].
      rewrite Nat.add_0_r in E0. cbn [skipn] in E0. rewrite firstn_all in E0. destruct b.
      * exists (Z.of_nat i). split; auto. left. exists i. split; auto. split; auto. split; [|intros; lia].
        apply occurs_window; try lia. symmetry. tauto.
      * destruct (IH s key (S i)) as [v [E1 E2]]; try lia. exists v. split; auto.
        assert (NO : ~ occurs s key i) by (rewrite occurs_window by lia; intros Q; symmetry in Q; apply E0 in Q; discriminate).
        destruct E2 as [(p & -> & P1 & P2 & P3)|[-> P]].
        -- left. exists p. split; auto. split; [lia|]. split; auto. intros j Hj.
           destruct (Nat.eq_dec j i) as [->|]; auto. apply P3. lia.
        -- right. split; auto. intros j Hj. destruct (Nat.eq_dec j i) as [->|]; auto. apply P. lia.
Qed.
Lemma least_bound : forall s key p v, least_from s key p v -> 0 <= v <= lnth s.
Proof. unfold lnth. intros s key p v [(i & -> & _ & O & _)|[-> _]]; [apply occurs_len in O|]; lia. Qed.
Lemma least_unique : forall s key p v w, key <> [] -> least_from s key p v -> least_from s key p w -> v = w.
Proof.
  intros s key p v w K [(i & -> & A & B & C)|[-> A]] [(j & -> & D & E & F)|[-> D]]; auto.
  - destruct (Nat.lt_total i j) as [L|[->|L]]; auto.
    + exfalso. apply (F i); auto.
    + exfalso. apply (C j); auto.
  - exfalso. apply (D i); auto.
  - exfalso. apply (A j); auto.
Qed.
Lemma findFrom_ok : forall s p key, key <> [] -> exists v, findFrom s p key = Val (to_int v) /\ least_from s key p v.
Proof.
  intros s p key K. unfold findFrom. destruct key as [|k key]; [congruence|]. cbn [length Nat.eqb]. apply scan_ok; auto. cbn [length]. lia.
Qed.
Lemma memchr_ok : forall n s i c, n = (length s - i)%nat -> exists r, memchr s i c n = Val r /\
  least_from s [c] i (match r with Some k => Z.of_nat k | None => lnth s end).
Proof.
  induction n as [|n IH]; intros s i c N; cbn [memchr].
  - exists None. split; auto. right. split; auto. intros j Hj O. apply occurs_len in O. cbn [length] in O. lia.
  - destruct (load_ok s i) as [a [La Sa]]; [lia|]. rewrite La. cbn [bind].
    assert (W : occurs s [c] i <-> a = c).
    { rewrite occurs_window by (cbn [length]; lia). rewrite Sa. cbn [length firstn]. split; congruence. }
    destruct (Z.eqb_spec a c) as [->|X].
    + exists (Some i). split; auto. left. exists i. split; auto. split; auto. split; [tauto|intros; lia].
    + destruct (IH s (S i) c) as [r [E E2]]; [lia|]. exists r. split; auto.
      assert (NO : ~ occurs s [c] i) by tauto.
      destruct E2 as [(p & -> & P1 & P2 & P3)|[-> P]].
      * left. exists p. split; auto. split; [lia|]. split; auto. intros j Hj. destruct (Nat.eq_dec j i) as [->|]; auto. apply P3. lia.
      * right. split; auto. intros j Hj. destruct (Nat.eq_dec j i) as [->|]; auto. apply P. lia.
Qed.
Lemma first_where_ok : forall p n s i, n = (length s - i)%nat -> (i <= length s)%nat -> Forall (fun c => p c = false) (firstn i s) ->
  exists r, first_where p s i n = Val r /\ longest_prefix (fun c => p c = false) s r.
Proof.
  intros p. induction n as [|n IH]; intros s i N Hi F; cbn [first_where].
  - exists (length s). split; auto. exists s, []. rewrite app_nil_r. split; auto. split; auto. split; auto.
    rewrite firstn_all2 in F by lia. auto.
  - destruct (load_ok s i) as [a [La Sa]]; [lia|]. rewrite La. cbn [bind]. destruct (p a) eqn:P.
    + exists i. split; auto. exists (firstn i s), (skipn i s). rewrite firstn_skipn. split; auto.
      split; [apply firstn_length_le; auto|]. split; auto. rewrite Sa. congruence.
    + apply IH; try lia. replace (firstn (S i) s) with (firstn i s ++ [a]).
      * apply Forall_app. split; auto.
      * rewrite <- (firstn_skipn i s) at 2. rewrite Sa. rewrite firstn_app, firstn_firstn, firstn_length_le by auto.
        replace (Nat.min (S i) i) with i by lia. replace (S i - i)%nat with 1%nat by lia. reflexivity.
Qed.
Lemma longest_unique : forall P s r r', longest_prefix P s r -> longest_prefix P s r' -> r = r'.
Proof.
  intros P s r r' (a & b & -> & <- & FA & NB) (a' & b' & E & <- & FA' & NB'). revert a' E FA'.
  induction a as [|x a IH]; intros [|x' a'] E FA'; cbn [app length] in *; auto.
  - subst b. inversion FA'; subst. contradiction.
  - subst b'. inversion FA; subst. contradiction.
  - injection E as -> E. inversion FA; inversion FA'; subst. f_equal. apply IH; auto.
Qed.
Lemma test_in : forall m c, test m c = true <-> In c m.
Proof. induction m as [|x m IH]; intros c; cbn [test In]; [split; [discriminate|tauto]|]. destruct (Z.eqb_spec x c); [tauto|]. rewrite IH. tauto. Qed.
Lemma longest_ext : forall (P Q : Z -> Prop) s r, (forall c, P c <-> Q c) -> longest_prefix P s r -> longest_prefix Q s r.
Proof.
  intros P Q s r H (a & b & -> & L & F & N). exists a, b. split; auto. split; auto. split.
  - eapply Forall_impl; [|exact F]. intros c. apply H.
  - destruct b as [|z b]; auto. intros K. apply N, H, K.
Qed.
Lemma substr_ok : forall s a n, 0 <= a -> 0 <= n -> a + n <= lnth s -> exists t, substr s a n = Val t /\ between s t a (a + n).
Proof.
  unfold lnth. intros s a n A N L. unfold substr, lnth. rewrite (proj2 (Z.leb_le 0 a)), (proj2 (Z.leb_le 0 n)), (proj2 (Z.leb_le _ _) L) by auto.
  cbn [andb]. eexists. split; [reflexivity|].
  exists (firstn (Z.to_nat a) s), (skipn (Z.to_nat n) (skipn (Z.to_nat a) s)). rewrite !firstn_skipn. split; auto.
  rewrite !firstn_length, !skipn_length. split; lia.
Qed.
Lemma between_app : forall s t a b, between s t 0 a -> forall u, between s u b (lnth s) -> forall m, a = Z.of_nat (length t) -> b = a + lnth m ->
  occurs s m (length t) -> s = t ++ m ++ u.
Proof.
  intros s t a b (x & y & E & L & _) u (x' & y' & E' & L' & L2) m A B (p & q & E2 & L3).
  destruct x; cbn [length] in L; [|lia]. cbn [app] in E.
  assert (Hy' : y' = []). { apply length_zero_iff_nil. apply (f_equal (@length Z)) in E'. rewrite !app_length in E'. unfold lnth in L2. lia. }
  subst y'. rewrite app_nil_r in E'.
  assert (p = t). { apply (f_equal (firstn (length t))) in E, E2. rewrite E2 in E. rewrite <- L3 in E at 1.
    rewrite !firstn_app, !firstn_all, L3, !Nat.sub_diag in E. cbn [firstn] in E. rewrite !app_nil_r in E. auto. }
  subst p. rewrite E2. f_equal. f_equal.
  apply (f_equal (skipn (length (t ++ m)))) in E2. rewrite app_assoc, skipn_app, skipn_all, Nat.sub_diag in E2. cbn [skipn app] in E2.
  rewrite <- E2. rewrite E'. rewrite skipn_app. replace (length (t ++ m)) with (length x').
  - rewrite skipn_all, Nat.sub_diag. reflexivity.
  - rewrite app_length. unfold lnth in *. lia.
Qed.
