From Coq Require Import ZArith List Bool Lia ZifyBool.
From Verif.StrFind Require Import Model Spec Proofs.
Import ListNotations.
Open Scope Z_scope.

(** C17: searching for a non-empty string from any position returns the least match at or after it, or the length,
    and never reads outside either string. *)
Theorem C17_find : forall s p key, key <> [] -> lnth s < 2 ^ 31 -> exists v, findFrom s p key = Val v /\ least_from s key p v.
Proof.
  intros s p key K L. destruct (findFrom_ok s p key K) as [v [E P]]. exists v. split; auto.
  pose proof (least_bound _ _ _ _ P). rewrite to_int_id in E; auto. lia.
Qed.
Print Assumptions C17_find.

(** The answer specified is unique. *)
Theorem C17_least_unique : forall s key p v w, key <> [] -> least_from s key p v -> least_from s key p w -> v = w.
Proof. apply least_unique. Qed.
Print Assumptions C17_least_unique.

(** The empty string is found at 0, ... *)
Theorem C17_find_empty : forall s, find s [] = Val 0 /\ least_from s [] 0 0.
Proof. intros s. split; auto. left. exists O. split; auto. split; auto. split; [|intros; lia]. exists [], s. auto. Qed.
Print Assumptions C17_find_empty.

(** ... even when the search starts later. *)
Theorem C17_find_empty_refuted : forall s p, (0 < p)%nat -> exists v, findFrom s p [] = Val v /\ v < Z.of_nat p.
Proof. intros s p H. exists 0. split; auto. lia. Qed.
Print Assumptions C17_find_empty_refuted.

Theorem C17_find_char : forall s p c, (p <= length s)%nat -> lnth s < 2 ^ 31 -> exists v, findFromChar s p c = Val v /\ least_from s [c] p v.
Proof.
  intros s p c H L. unfold findFromChar. rewrite (proj2 (Nat.ltb_ge _ _) H).
  destruct (memchr_ok (length s - p) s p c eq_refl) as [r [E P]]. rewrite E. cbn [bind]. eexists. split; [reflexivity|].
  pose proof (least_bound _ _ _ _ P). rewrite to_int_id; auto. lia.
Qed.
Print Assumptions C17_find_char.

(** Searching for a character from beyond the end reads outside the string; for a string it does not (C17_find). *)
Theorem C17_find_char_refuted : forall s p c, (length s < p)%nat -> findFromChar s p c = Undef.
Proof. intros s p c H. unfold findFromChar. rewrite (proj2 (Nat.ltb_lt _ _) H). auto. Qed.
Print Assumptions C17_find_char_refuted.

(** In a string of 2^31 or more characters, "not found" is not reported as the length. *)
Theorem C17_long_refuted : forall s key, 2 ^ 31 <= lnth s -> lnth s < 2 ^ 63 -> key <> [] -> (forall i, ~ occurs s key i) ->
  exists v, sfind s key = Val v /\ v <> lnth s.
Proof.
  intros s key L U K N. destruct (findFrom_ok s 0 key K) as [v [E P]].
  destruct P as [(i & _ & _ & O & _)|[-> _]]; [exfalso; apply (N i O)|].
  unfold sfind, find. rewrite E. cbn [bind]. eexists. split; [reflexivity|]. fold (lnth s).
  unfold to_size, to_int. intros Q.
  assert (B : - 2 ^ 31 <= (lnth s + 2 ^ 31) mod 2 ^ 32 - 2 ^ 31 < 2 ^ 31) by (pose proof (Z.mod_pos_bound (lnth s + 2 ^ 31) (2 ^ 32)); lia).
  set (x := (lnth s + 2 ^ 31) mod 2 ^ 32 - 2 ^ 31) in *.
  destruct (Z_lt_le_dec x 0) as [X|X].
  - replace x with (x + 2 ^ 64 + (-1) * 2 ^ 64) in Q by lia. rewrite Z.mod_add, Z.mod_small in Q by lia. lia.
  - rewrite Z.mod_small in Q by lia. lia.
Qed.
Print Assumptions C17_long_refuted.

(** includes holds exactly when the key occurs, except that the empty string does not include the empty string. *)
Theorem C17_includes : forall s key, lnth s < 2 ^ 31 -> s <> [] \/ key <> [] ->
  exists b, includes s key = Val b /\ (b = true <-> exists i, occurs s key i).
Proof.
  intros s key L N. unfold includes. destruct key as [|k key].
  - unfold find, findFrom. cbn [length Nat.eqb bind]. eexists. split; [reflexivity|].
    destruct N as [N|N]; [|congruence]. destruct s as [|c s]; [congruence|]. rewrite to_size_id by lia. split; intros _.
    + exists O, [], (c :: s). auto.
    + unfold lnth. cbn [length]. lia.
  - destruct (C17_find s 0 (k :: key)) as [v [E P]]; auto; [congruence|]. unfold find. rewrite E. cbn [bind]. eexists. split; [reflexivity|].
    pose proof (least_bound _ _ _ _ P). rewrite to_size_id by lia. destruct P as [(i & -> & _ & O & _)|[-> P]].
    + split; intros _; [exists i; auto|]. apply occurs_len in O. cbn [length] in O. unfold lnth. lia.
    + unfold lnth. rewrite Z.ltb_irrefl. split; [discriminate|]. intros [i O]. exfalso. apply (P i); auto. lia.
Qed.
Print Assumptions C17_includes.
Theorem C17_includes_refuted : includes [] [] = Val false /\ occurs [] [] 0.
Proof. split; [reflexivity|]. exists [], []. auto. Qed.
Print Assumptions C17_includes_refuted.

Theorem C17_prefix : forall s p, exists b, startsWith s p = Val b /\ (b = true <-> exists t, s = p ++ t).
Proof.
  intros s p. unfold startsWith. destruct (Nat.ltb_spec (length s) (length p)) as [L|L].
  - exists false. split; auto. split; [discriminate|]. intros [t ->]. rewrite app_length in L. lia.
  - destruct (memcmp_ok (length p) s 0 p 0) as [r [E [E0 _]]]; try lia. rewrite E. cbn [bind]. eexists. split; [reflexivity|].
    rewrite Z.eqb_eq, E0. cbn [skipn]. rewrite firstn_all. split.
    + intros Q. exists (skipn (length p) s). rewrite <- Q at 1. symmetry. apply firstn_skipn.
    + intros [t ->]. rewrite firstn_app, firstn_all, Nat.sub_diag. apply app_nil_r.
Qed.
Print Assumptions C17_prefix.
Theorem C17_suffix : forall s p, exists b, endsWith s p = Val b /\ (b = true <-> exists t, s = t ++ p).
Proof.
  intros s p. unfold endsWith. destruct (Nat.ltb_spec (length s) (length p)) as [L|L].
  - exists false. split; auto. split; [discriminate|]. intros [t ->]. rewrite app_length in L. lia.
  - destruct (memcmp_ok (length p) s (length s - length p) p 0) as [r [E [E0 _]]]; try lia. rewrite E. cbn [bind]. eexists. split; [reflexivity|].
    rewrite Z.eqb_eq, E0. cbn [skipn]. rewrite firstn_all. rewrite firstn_all2 by (rewrite skipn_length; lia). split.
    + intros Q. exists (firstn (length s - length p) s). rewrite <- Q at 2. symmetry. apply firstn_skipn.
    + intros [t ->]. rewrite app_length. replace (length t + length p - length p)%nat with (length t) by lia.
      rewrite skipn_app, skipn_all, Nat.sub_diag. reflexivity.
Qed.
Print Assumptions C17_suffix.
Example ex_find : findFrom [97;98;97;98;99] 0 [97;98;99] = Val 2 /\ findFrom [97;98;97;98;99] 1 [98] = Val 1 /\
  findFrom [97;98;97;98;99] 2 [98] = Val 3 /\ findFrom [97;98] 7 [98] = Val 2 /\ findFromChar [97;98;97] 1 97 = Val 2 /\
  findFromChar [97;98;97] 3 97 = Val 3 /\ includes [97;98] [98] = Val true /\ startsWith [97;98] [97] = Val true /\ endsWith [97;98] [97] = Val false /\
  endsWith [97;98] [98] = Val true /\ includes [97;98] [99] = Val false.
Proof. vm_compute. repeat split. Qed.

(** C70: strcmp gives the dictionary order on strings whose lengths differ by less than 2^31. *)
Definition near (a b : text) : Prop := - 2 ^ 31 < lnth a - lnth b < 2 ^ 31.
Theorem C70_strcmp : forall a b, near a b -> exists r, strcmp a b = Val r /\ (r < 0 <-> before a b) /\ (r = 0 <-> a = b) /\ (0 < r <-> before b a).
Proof.
  intros a b N. unfold near, lnth in N. destruct (strcmpl_ok a b (length a) (length b)) as [r H]; auto. rewrite !firstn_all in H. exists r. exact H.
Qed.
Print Assumptions C70_strcmp.
Theorem C70_operators : forall a b, near a b ->
  (eq a b = Val true <-> a = b) /\ (ne a b = Val true <-> a <> b) /\ (lt a b = Val true <-> before a b) /\ (gt a b = Val true <-> before b a) /\
  (le a b = Val true <-> ~ before b a) /\ (ge a b = Val true <-> ~ before a b).
Proof.
  intros a b N. destruct (C70_strcmp a b N) as [r [E [A [B C]]]]. unfold eq, ne, lt, gt, le, ge. rewrite E. cbn [bind].
  assert (V : forall x y : bool, Val x = Val y <-> x = y) by (intros; split; congruence). rewrite !V, !negb_true_iff, <- A, <- C.
  rewrite Z.eqb_neq, Z.eqb_eq, !Z.ltb_lt, !Z.leb_le. rewrite <- B. intuition lia.
Qed.
Print Assumptions C70_operators.
(** The dictionary order is a strict total order. *)
Theorem C70_order : (forall a, ~ before a a) /\ (forall a b c, before a b -> before b c -> before a c) /\
  forall a b, before a b \/ a = b \/ before b a.
Proof. split; [apply before_irrefl|]. split; [apply before_trans|apply before_total]. Qed.
Print Assumptions C70_order.
(** Beyond that the difference of the lengths is truncated: a longer string can compare equal to or less than its own prefix. *)
Theorem C70_long_refuted : (exists a b, a <> b /\ eq a b = Val true) /\ (exists a b, before a b /\ lt a b = Val false /\ gt a b = Val true).
Proof.
  assert (S : forall b : text, strcmp [] b = Val (to_int (to_size (- lnth b)))) by (intros; reflexivity).
  assert (L : forall z, 0 <= z -> lnth (repeat 97 (Z.to_nat z)) = z) by (intros; unfold lnth; rewrite repeat_length; lia).
  assert (N : forall z, 0 < z -> exists t, repeat 97 (Z.to_nat z) = 97 :: t) by (intros; exists (repeat 97 (Nat.pred (Z.to_nat z))); destruct (Z.to_nat z) eqn:Q; [lia|reflexivity]).
  split.
  - exists [], (repeat 97 (Z.to_nat (2 ^ 32))). destruct (N (2 ^ 32)) as [t T]; [lia|]. split; [rewrite T; congruence|].
    unfold eq. rewrite S, L by lia. reflexivity.
  - exists [], (repeat 97 (Z.to_nat (2 ^ 31 + 1))). destruct (N (2 ^ 31 + 1)) as [t T]; [lia|]. split; [rewrite T; constructor|].
    unfold lt, gt. rewrite S, L by lia. split; reflexivity.
Qed.
Print Assumptions C70_long_refuted.
(** strncmp compares the first n characters when both strings have them, and otherwise aborts. *)
Theorem C70_strncmp : forall a b n, ((n <= length a)%nat -> (n <= length b)%nat -> exists r, strncmp a b n = Val r /\
    (r < 0 <-> before (firstn n a) (firstn n b)) /\ (r = 0 <-> firstn n a = firstn n b) /\ (0 < r <-> before (firstn n b) (firstn n a))) /\
  (((length a < n)%nat \/ (length b < n)%nat) -> strncmp a b n = Abort).
Proof.
  intros a b n. split.
  - intros A B. unfold strncmp. rewrite (proj2 (Nat.ltb_ge _ _) A), (proj2 (Nat.ltb_ge _ _) B). cbn [orb]. apply strcmpl_ok; auto. lia.
  - intros H. unfold strncmp. destruct (Nat.ltb_spec (length a) n), (Nat.ltb_spec (length b) n); cbn [orb]; auto. lia.
Qed.
Print Assumptions C70_strncmp.
Example ex_cmp : lt [97;98] [97;98;0] = Val true /\ gt [200] [97;98] = Val true /\ le [97] [97] = Val true /\ strcmp [97;98] [97;99] = Val (-1) /\
  ge [97;98] [97] = Val true /\ ne [1] [1] = Val false /\ strncmp [97;98] [97;99] 1 = Val 0 /\ strncmp [97] [97;99] 2 = Abort.
Proof. vm_compute. repeat split. Qed.

(** C71: include and exclude measure the longest prefix inside and outside a set of characters. *)
Theorem C71_include : forall s mask, lnth s < 2 ^ 31 ->
  (exists r, include s mask = Val (Z.of_nat r) /\ longest_prefix (fun c => In c mask) s r) /\
  (exists r, exclude s mask = Val (Z.of_nat r) /\ longest_prefix (fun c => ~ In c mask) s r).
Proof.
  intros s mask L. unfold lnth in L. unfold include, exclude. split.
  - destruct (first_where_ok (fun c => negb (test mask c)) (length s) s 0) as [r [E P]]; try lia; [constructor|].
    rewrite E. cbn [bind]. exists r. assert (r <= length s)%nat by (destruct P as (a & b & -> & <- & _); rewrite app_length; lia).
    rewrite to_int_id by lia. split; auto. eapply longest_ext; [|exact P]. intros c. cbn beta. rewrite negb_false_iff. apply test_in.
  - destruct (first_where_ok (test mask) (length s) s 0) as [r [E P]]; try lia; [constructor|].
    rewrite E. cbn [bind]. exists r. assert (r <= length s)%nat by (destruct P as (a & b & -> & <- & _); rewrite app_length; lia).
    rewrite to_int_id by lia. split; auto. eapply longest_ext; [|exact P]. intros c. cbn beta. rewrite <- test_in. destruct (test mask c); intuition congruence.
Qed.
Print Assumptions C71_include.
Theorem C71_include_predicate : forall s f,
  (exists r, includef s f = Val r /\ longest_prefix (fun c => f c <> 0) s r) /\
  (exists r, excludef s f = Val r /\ longest_prefix (fun c => f c = 0) s r).
Proof.
  intros s f. unfold includef, excludef. split.
  - destruct (first_where_ok (fun c => f c =? 0) (length s) s 0) as [r [E P]]; try lia; [constructor|].
    exists r. split; auto. eapply longest_ext; [|exact P]. intros c. apply Z.eqb_neq.
  - destruct (first_where_ok (fun c => negb (f c =? 0)) (length s) s 0) as [r [E P]]; try lia; [constructor|].
    exists r. split; auto. eapply longest_ext; [|exact P]. intros c. cbn beta. rewrite negb_false_iff. apply Z.eqb_eq.
Qed.
Print Assumptions C71_include_predicate.
Theorem C71_longest_unique : forall P s r r', longest_prefix P s r -> longest_prefix P s r' -> r = r'.
Proof. apply longest_unique. Qed.
Print Assumptions C71_longest_unique.

(** Slices: a negative start counts from the end, a negative length extends leftwards from the start. *)
Definition begins (s : text) (start n : Z) : Z := let p := if start <? 0 then lnth s + start else start in if n <? 0 then p + n + 1 else p.
Theorem C71_slice : forall s start n, lnth s < 2 ^ 62 -> - 2 ^ 62 < start < 2 ^ 62 -> - 2 ^ 62 < n < 2 ^ 62 ->
  (0 <= begins s start n < lnth s -> exists t, slice s start n = Val t /\
     between s t (begins s start n) (Z.min (begins s start n + Z.abs n) (lnth s))) /\
  (~ 0 <= begins s start n < lnth s -> slice s start n = Val []).
Proof.
  intros s start n L S N. unfold slice. assert (0 <= lnth s) by (unfold lnth; lia).
  set (lo := begins s start n). assert (E : (let start1 := if start <? 0 then start + lnth s else start in
    if n <? 0 then bind (ssize (- n)) (fun n' => bind (ssize (start1 - (n' - 1))) (fun b => Val (b, n'))) else Val (start1, n)) = Val (lo, Z.abs n)).
  { subst lo. unfold begins, ssize. cbv zeta. destruct (Z.ltb_spec n 0).
    - rewrite (proj2 (Z.leb_le (- 2 ^ 63) (- n))), (proj2 (Z.ltb_lt (- n) (2 ^ 63))) by lia. cbn [andb bind].
      set (q := (if start <? 0 then start + lnth s else start) - (- n - 1)).
      assert (Q : - 2 ^ 63 <= q < 2 ^ 63) by (subst q; destruct (Z.ltb_spec start 0); lia).
      rewrite (proj2 (Z.leb_le (- 2 ^ 63) q)), (proj2 (Z.ltb_lt q (2 ^ 63))) by lia. cbn [andb bind]. subst q.
      f_equal. f_equal; [destruct (start <? 0); lia|lia].
    - f_equal. f_equal; [destruct (start <? 0); lia|lia]. }
  cbv zeta in E. rewrite E. cbn [bind].
  assert (B : - 2 ^ 63 < lo + Z.abs n < 2 ^ 63) by (subst lo; unfold begins; destruct (Z.ltb_spec start 0), (Z.ltb_spec n 0); lia).
  split; intros R.
  - rewrite (proj2 (Z.ltb_ge lo 0)), (proj2 (Z.leb_gt (lnth s) lo)) by lia. cbn [orb]. unfold ssize.
    rewrite (proj2 (Z.leb_le (- 2 ^ 63) (lo + Z.abs n))), (proj2 (Z.ltb_lt (lo + Z.abs n) (2 ^ 63))) by lia. cbn [andb bind].
    destruct (Z.ltb_spec (lnth s) (lo + Z.abs n)).
    + destruct (substr_ok s lo (lnth s - lo)) as [t [T1 T2]]; try lia. exists t. split; auto.
      replace (Z.min (lo + Z.abs n) (lnth s)) with (lo + (lnth s - lo)) by lia. auto.
    + destruct (substr_ok s lo (Z.abs n)) as [t [T1 T2]]; try lia. exists t. split; auto.
      replace (Z.min (lo + Z.abs n) (lnth s)) with (lo + Z.abs n) by lia. auto.
  - destruct (Z.ltb_spec lo 0), (Z.leb_spec (lnth s) lo); cbn [orb]; auto. lia.
Qed.
Print Assumptions C71_slice.
(** "The rest of the string", written with the largest length, overflows. *)
Theorem C71_slice_overflow_refuted : forall s start, 0 < start < lnth s -> slice s start (2 ^ 63 - 1) = Undef.
Proof.
  intros s start H. unfold slice. rewrite (proj2 (Z.ltb_ge start 0)) by lia. change (2 ^ 63 - 1 <? 0) with false. cbn [bind].
  rewrite (proj2 (Z.ltb_ge start 0)), (proj2 (Z.leb_gt (lnth s) start)) by lia. cbn [orb]. unfold ssize.
  rewrite (proj2 (Z.ltb_ge (start + (2 ^ 63 - 1)) (2 ^ 63))) by lia. rewrite andb_false_r. reflexivity.
Qed.
Print Assumptions C71_slice_overflow_refuted.
Theorem C71_tail : forall s start, - lnth s <= start <= lnth s -> exists t, tail s start = Val t /\
  between s t (if start <? 0 then lnth s + start else start) (lnth s).
Proof.
  intros s start H. unfold tail. rewrite (Z.add_comm start). set (p := if start <? 0 then lnth s + start else start).
  assert (0 <= p <= lnth s) by (subst p; destruct (Z.ltb_spec start 0); lia).
  destruct (substr_ok s p (lnth s - p)) as [t [T1 T2]]; try lia. exists t. split; auto. replace (p + (lnth s - p)) with (lnth s) in T2 by lia. auto.
Qed.
Print Assumptions C71_tail.
(** Outside the string, s( start, n ) is empty but s( start ) covers memory that is not part of the string. *)
Theorem C71_tail_refuted : forall s start, lnth s < start \/ start < - lnth s -> tail s start = Undef.
Proof.
  intros s start H. assert (0 <= lnth s) by (unfold lnth; lia). unfold tail, substr.
  destruct (Z.ltb_spec start 0).
  - rewrite (proj2 (Z.leb_gt 0 (start + lnth s))) by lia. reflexivity.
  - rewrite (proj2 (Z.leb_gt 0 (lnth s - start))) by lia. rewrite andb_false_r. reflexivity.
Qed.
Print Assumptions C71_tail_refuted.

(** Replacing a non-empty string. *)
Theorem C71_replace : forall s from to, lnth s < 2 ^ 31 -> from <> [] ->
  exists r, (forall fuel, (length s < fuel)%nat -> replace fuel s from to = Val r) /\ replaced from to s r.
Proof.
  intros s from to L K. assert (exists n, (length s < n)%nat) as [n N] by (exists (S (length s)); lia). revert s L N.
  induction n as [|n IH]; intros s L N; [lia|].
  destruct (C17_find s 0 from K L) as [v [E P]]. pose proof (least_bound _ _ _ _ P) as B.
  assert (F : sfind s from = Val v) by (unfold sfind, find; rewrite E; cbn [bind]; rewrite to_size_id by lia; auto).
  destruct P as [(i & -> & _ & O & NO)|[-> NO]].
  - pose proof (occurs_len _ _ _ O) as OL. assert (0 < length from)%nat by (destruct from; [congruence|cbn [length]; lia]).
    destruct (C71_slice s 0 (Z.of_nat i)) as [SL _]; try (unfold lnth in *; lia).
    assert (BG : begins s 0 (Z.of_nat i) = 0) by (unfold begins; rewrite (proj2 (Z.ltb_ge (Z.of_nat i) 0)) by lia; reflexivity).
    rewrite BG in SL. destruct SL as [a [SA BA]]; [unfold lnth in *; lia|].
    replace (Z.min (0 + Z.abs (Z.of_nat i)) (lnth s)) with (Z.of_nat i) in BA by lia.
    destruct (C71_tail s (Z.of_nat i + lnth from)) as [b [SB BB]]; [unfold lnth; lia|].
    rewrite (proj2 (Z.ltb_ge (Z.of_nat i + lnth from) 0)) in BB by (unfold lnth; lia).
    assert (LA : length a = i) by (destruct BA as (x & y & _ & X & Y); lia).
    assert (S0 : s = a ++ from ++ b).
    { apply (between_app s a (Z.of_nat i) (Z.of_nat i + lnth from)); auto; rewrite LA; auto. }
    assert (LB : (length b < length s)%nat) by (rewrite S0, !app_length; lia).
    destruct (IH b) as [r [R1 R2]]; [unfold lnth in *; lia|lia|].
    exists (a ++ to ++ r). split.
    + intros [|fuel] HF; [lia|]. cbn [replace]. rewrite F. cbn [bind]. rewrite (proj2 (Z.ltb_lt _ _)) by (unfold lnth; lia).
      rewrite SA. cbn [bind]. rewrite SB. cbn [bind]. rewrite R1 by lia. reflexivity.
    + rewrite S0. apply rep_some; auto. rewrite <- S0, LA. intros j Hj. apply NO. lia.
  - exists s. split.
    + intros [|fuel] HF; [lia|]. cbn [replace]. rewrite F. cbn [bind]. unfold lnth. rewrite Z.ltb_irrefl. reflexivity.
    + apply rep_none. intros i. apply NO. lia.
Qed.
Print Assumptions C71_replace.
(** Replacing the empty string in a non-empty string never returns. *)
Theorem C71_replace_empty_refuted : forall s to fuel, s <> [] -> replace fuel s [] to = Loop.
Proof.
  intros s to fuel K. induction fuel as [|fuel IH]; auto. cbn [replace].
  assert (0 < lnth s) by (destruct s; [congruence|unfold lnth; cbn [length]; lia]).
  change (sfind s []) with (@Val Z 0). cbn [bind]. rewrite (proj2 (Z.ltb_lt 0 (lnth s))) by auto.
  assert (A : slice s 0 0 = Val []).
  { unfold slice. cbn [bind]. change (0 <? 0) with false. cbn iota. cbn [bind]. change (0 <? 0) with false.
    rewrite (proj2 (Z.leb_gt (lnth s) 0)) by auto. cbn [orb]. change (ssize (0 + 0)) with (@Val Z 0). cbn [bind].
    rewrite (proj2 (Z.ltb_ge (lnth s) 0)) by lia. unfold substr. change (0 <=? 0) with true. cbn [andb].
    rewrite (proj2 (Z.leb_le (0 + 0) (lnth s))) by lia. reflexivity. }
  assert (B : tail s (0 + lnth []) = Val s).
  { change (0 + lnth []) with 0. unfold tail. change (0 <? 0) with false. cbn iota. rewrite Z.sub_0_r. unfold substr. change (0 <=? 0) with true.
    rewrite (proj2 (Z.leb_le 0 (lnth s))), (proj2 (Z.leb_le (0 + lnth s) (lnth s))) by lia. cbn [andb].
    change (Z.to_nat 0) with O. cbn [skipn]. unfold lnth. rewrite Nat2Z.id, firstn_all. auto. }
  rewrite A. cbn [bind]. rewrite B. cbn [bind]. rewrite IH. reflexivity.
Qed.
Print Assumptions C71_replace_empty_refuted.
Example ex_slices : slice [1;2;3;4;5] 1 2 = Val [2;3] /\ slice [1;2;3;4;5] (-2) 9 = Val [4;5] /\ slice [1;2;3;4;5] 3 (-2) = Val [3;4] /\
  slice [1;2;3;4;5] 1 (-3) = Val [] /\ slice [1;2;3] 3 1 = Val [] /\ tail [1;2;3] (-2) = Val [2;3] /\ tail [1;2;3] 3 = Val [] /\ tail [1;2;3] 4 = Undef.
Proof. vm_compute. repeat split. Qed.
Example ex_replace : replace 9 [1;1;1;2;1;1] [1;1] [7] = Val [7;1;2;7] /\ replace 9 [1;2] [3] [4] = Val [1;2] /\ replace 9 [] [] [4] = Val [] /\
  include [1;2;3;1] [2;1] = Val 2 /\ exclude [1;2;3;1] [3] = Val 2 /\ include [1;1] [1] = Val 2.
Proof. vm_compute. repeat split. Qed.
