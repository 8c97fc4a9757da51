From Coq Require Import List ZArith Lia Bool ZifyBool Sorted.
From Verif.HeapBuckets Require Import Model Spec.
Import ListNotations.
Local Open Scope Z_scope.

Definition incr (l : list Z) : Prop :=
  forall i j a b, (i < j)%nat -> nth_error l i = Some a -> nth_error l j = Some b -> a < b.

Fixpoint incrb (l : list Z) : bool :=
  match l with
  | a :: r => match r with b :: _ => (a <? b) && incrb r | nil => true end
  | nil => true
  end.

Lemma incrb_ok : forall l, incrb l = true -> incr l.
Proof.
  induction l as [|a l IH]; intros H i j x y L A B.
  - destruct i; discriminate.
  - destruct l as [|b l].
    + destruct j as [|[|j]]; cbn in B; try discriminate. lia.
    + cbn [incrb] in H. apply andb_true_iff in H as [H1 H2]. specialize (IH H2).
      destruct j as [|j]; [lia|]. cbn [nth_error] in B.
      destruct i as [|i]; cbn [nth_error] in A.
      * injection A as <-. destruct j as [|j].
        { cbn in B. injection B as <-. lia. }
        { assert (b < y) by (apply (IH 0%nat (S j)); auto with arith; lia). lia. }
      * apply (IH i j); auto; lia.
Qed.

Lemma sizes_incr : incr bucketSizes.
Proof. apply incrb_ok. vm_compute. reflexivity. Qed.

Lemma sizes_len : length bucketSizes = NoBucketSizes.
Proof. reflexivity. Qed.

Lemma sizes_last : nth_error bucketSizes 90 = Some 4194320.
Proof. reflexivity. Qed.

Lemma sizes_range : forall i b, nth_error bucketSizes i = Some b -> 32 <= b <= 4194320.
Proof.
  intros i b H. apply nth_error_In in H.
  assert (F : forallb (fun b => (32 <=? b) && (b <=? 4194320)) bucketSizes = true) by (vm_compute; reflexivity).
  rewrite forallb_forall in F. specialize (F _ H). lia.
Qed.

(** the binary search over the first [dim] entries *)
Lemma bsearch_loop_ok : forall key vals dim, incr vals -> (dim <= length vals)%nat ->
  forall fuel l h, (h - l < fuel)%nat -> (l <= h <= dim)%nat ->
  (forall j b, (j < l)%nat -> nth_error vals j = Some b -> b < key) ->
  (forall j b, (h <= j < dim)%nat -> nth_error vals j = Some b -> key <= b) ->
  exists k, bsearch_loop fuel key vals l h = Some k /\ (k <= dim)%nat /\
    (forall j b, (j < k)%nat -> nth_error vals j = Some b -> b < key) /\
    (forall j b, (k <= j < dim)%nat -> nth_error vals j = Some b -> key <= b).
Proof.
  intros key vals dim I D; induction fuel as [|f IH]; intros l h F B L H; [lia|].
  cbn [bsearch_loop]. destruct (Nat.ltb_spec l h) as [C|C].
  2:{ exists l. replace h with l in H by lia. repeat split; auto. lia. }
  set (m := Nat.div (l + h) 2) in *.
  assert (M : (l <= m < h)%nat).
  { unfold m. split; [apply Nat.div_le_lower_bound; lia | apply Nat.div_lt_upper_bound; lia]. }
  destruct (nth_error vals m) as [v|] eqn:E; [|apply nth_error_None in E; lia].
  destruct (Z.ltb_spec v key) as [V|V]; apply IH; try lia; auto.
  - intros j b J N. destruct (Nat.eq_dec j m) as [->|]; [congruence|].
    assert (b < v) by (apply (I j m); auto; lia). lia.
  - intros j b J N. destruct (Nat.eq_dec j m) as [->|]; [congruence|].
    assert (v < b) by (apply (I m j); auto; lia). lia.
Qed.

Lemma Bsearchl_ok : forall key dim, 0 <= key < 2 ^ 32 -> (dim <= NoBucketSizes)%nat ->
  exists k, Bsearchl key bucketSizes dim = Some k /\ (k <= dim)%nat /\
    (forall j b, (j < k)%nat -> nth_error bucketSizes j = Some b -> b < key) /\
    (forall j b, (k <= j < dim)%nat -> nth_error bucketSizes j = Some b -> key <= b).
Proof.
  intros key dim K D. unfold Bsearchl. rewrite Z.mod_small by lia.
  apply bsearch_loop_ok with (dim := dim); try lia; auto using sizes_incr.
Qed.

Lemma Bsearchl_least : forall key, 0 <= key <= 4194320 ->
  exists k, Bsearchl key bucketSizes NoBucketSizes = Some k /\ least_class bucketSizes key k.
Proof.
  intros key K. destruct (Bsearchl_ok key NoBucketSizes) as (k & E & B & L & H);
    [change (2 ^ 32) with 4294967296; lia | lia |].
  exists k. split; auto. split; auto.
  assert (k < NoBucketSizes)%nat.
  { destruct (Nat.eq_dec k NoBucketSizes) as [->|]; [|lia].
    specialize (L 90%nat 4194320). unfold NoBucketSizes in L. rewrite sizes_last in L.
    assert (4194320 < key) by (apply L; auto; lia). lia. }
  destruct (nth_error bucketSizes k) as [s|] eqn:N.
  - exists s. split; auto. apply (H k); auto.
  - apply nth_error_None in N. rewrite sizes_len in N. lia.
Qed.

Lemma least_unique : forall n k k', least_class bucketSizes n k -> least_class bucketSizes n k' -> k = k'.
Proof.
  intros n k k' ((s & A & B) & C) ((s' & A' & B') & C').
  destruct (Nat.lt_trichotomy k k') as [L|[L|L]]; auto.
  - specialize (C' k s L A). lia.
  - specialize (C k' s' L A'). lia.
Qed.

(** the fill loop: at index [i] the running index is the class of [i - 1] *)
Lemma fill_ok : forall n i idx t, 0 <= i -> i + Z.of_nat n <= 65552 ->
  least_class bucketSizes (Z.max 0 (i - 1)) idx ->
  exists t', fill n i idx t = Some t' /\
    (forall x, x < i \/ i + Z.of_nat n <= x -> t' x = t x) /\
    (forall x, i <= x < i + Z.of_nat n -> exists k, t' x = Some k /\ least_class bucketSizes x k).
Proof.
  induction n as [|n IH]; intros i idx t I B L.
  - exists t. repeat split; auto. lia.
  - cbn [fill]. destruct L as ((b & N & LB) & LT). rewrite N.
    set (idx' := if b <? i then S idx else idx).
    assert (L' : least_class bucketSizes i idx').
    { unfold idx'. destruct (Z.ltb_spec b i) as [C|C].
      - assert (b = i - 1) by lia.
        destruct (nth_error bucketSizes (S idx)) as [b'|] eqn:N'.
        + assert (b < b') by (apply (sizes_incr idx (S idx)); auto).
          split; [exists b'; split; auto; lia|].
          intros j s J S. destruct (Nat.eq_dec j idx) as [->|]; [congruence|].
          specialize (LT j s ltac:(lia) S). lia.
        + exfalso. apply nth_error_None in N'. rewrite sizes_len in N'. unfold NoBucketSizes in N'.
          assert (idx = 90)%nat.
          { assert (idx < 91)%nat by (change 91%nat with (length bucketSizes); apply nth_error_Some; congruence). lia. }
          subst idx. rewrite sizes_last in N. injection N as <-. lia.
      - split; [exists b; auto|]. intros j s J S. specialize (LT j s J S). lia. }
    destruct (IH (i + 1) idx' (fun x => if x =? i then Some idx' else t x)) as (t' & E & O & T); try lia.
    { replace (Z.max 0 (i + 1 - 1)) with i by lia. exact L'. }
    exists t'. split; auto. split.
    + intros x X. rewrite O by lia. destruct (Z.eqb_spec x i); [lia|]; auto.
    + intros x X. destruct (Z.eq_dec x i) as [->|].
      * exists idx'. split; auto. rewrite O by lia. now rewrite Z.eqb_refl.
      * apply T. lia.
Qed.

Lemma lookup_least : forall n, 0 <= n < LookupSizes -> exists k, lookup n = Some k /\ least_class bucketSizes n k.
Proof.
  intros n N. unfold lookup, lookup_table, LookupSizes, storage in *.
  destruct (fill_ok (Z.to_nat (65536 + 16)) 0 0 (fun _ => None)) as (t & E & _ & T); try lia.
  - split; [exists 32; split; auto; lia | intros j s J; lia].
  - rewrite E. apply T. lia.
Qed.

Lemma lookup_search : forall n, 0 <= n < LookupSizes -> lookup n = Bsearchl n bucketSizes NoBucketSizes.
Proof.
  intros n N. destruct (lookup_least n N) as (k & E & L).
  destruct (Bsearchl_least n) as (k' & E' & L'); [unfold LookupSizes, storage in N; lia|].
  rewrite E, E'. f_equal. eauto using least_unique.
Qed.

Lemma setMmap_ok : forall page v, 0 <= page -> forall m, setMmapStart page v = Some m ->
  page <= v <= 4194320 /\ least_class bucketSizes v m.
Proof.
  intros page v P m H. unfold setMmapStart in H.
  change (nth (NoBucketSizes - 1) bucketSizes 0) with 4194320 in H.
  destruct (Z.ltb_spec v page); cbn [orb] in H; [discriminate|].
  destruct (Z.ltb_spec 4194320 v); [discriminate|].
  split; [lia|]. destruct (Bsearchl_least v) as (k & E & L); [lia|]. congruence.
Qed.

Lemma least_lt : forall n k, least_class bucketSizes n k -> (k < NoBucketSizes)%nat.
Proof.
  intros n k ((s & A & _) & _). rewrite <- sizes_len. apply nth_error_Some. congruence.
Qed.

Lemma choose_least : forall mmap max size, mmap <= 4194320 -> least_class bucketSizes mmap max ->
  0 <= size -> size + 16 < mmap ->
  exists k, choose mmap max size = Some k /\ least_class bucketSizes (size + 16) k /\ (k <= max)%nat.
Proof.
  intros mmap max size M L S T. unfold choose. change storage with 16.
  assert (P : 2 ^ 64 = 18446744073709551616) by reflexivity. rewrite Z.mod_small by lia.
  destruct (Z.ltb_spec (size + 16) mmap) as [_|]; [|lia].
  assert (X : exists k, (if size + 16 <? LookupSizes then lookup (size + 16)
                         else Bsearchl (size + 16) bucketSizes max) = Some k /\
                        least_class bucketSizes (size + 16) k).
  { destruct (Z.ltb_spec (size + 16) LookupSizes) as [C|C]; [apply lookup_least; lia|].
    pose proof (least_lt _ _ L) as LM.
    destruct (Bsearchl_ok (size + 16) max) as (k & E & B & A & H);
      [change (2 ^ 32) with 4294967296; lia | lia |].
    exists k. split; auto. split; auto.
    destruct (Nat.eq_dec k max) as [->|].
    - destruct L as ((s & N & Q) & _). exists s. split; auto. lia.
    - destruct (nth_error bucketSizes k) as [s|] eqn:N.
      + exists s. split; auto. apply (H k); auto. lia.
      + apply nth_error_None in N. rewrite sizes_len in N. lia. }
  destruct X as (k & E & Q). exists k. repeat split; auto; try apply Q.
  destruct (le_lt_dec k max) as [|C]; auto. exfalso.
  destruct L as ((s & N & LE) & _). destruct Q as (_ & LT). specialize (LT max s C N). lia.
Qed.

Lemma leftover_ok : forall max rem k, (max < NoBucketSizes)%nat -> 0 <= rem ->
  leftover max rem = Some k -> exists b, nth_error bucketSizes k = Some b /\ b <= rem.
Proof.
  intros max rem k M R H. unfold leftover in H.
  change (nth 0 bucketSizes 0) with 32 in H.
  set (r := rem mod 2 ^ 32) in *.
  assert (P : 2 ^ 32 = 4294967296) by reflexivity.
  assert (RR : 0 <= r < 4294967296) by (unfold r; rewrite P; apply Z.mod_pos_bound; lia).
  assert (RL : r <= rem) by (unfold r; rewrite P; apply Z.mod_le; lia).
  destruct (Z.ltb_spec r 32) as [|C]; [discriminate|].
  destruct (Bsearchl_ok r max) as (b & E & B & A & G); [rewrite P; lia | lia |].
  assert (E' : Bsearchl rem bucketSizes max = Some b).
  { unfold Bsearchl in *. fold r. rewrite Z.mod_small in E by (rewrite P; lia). exact E. }
  rewrite E' in H.
  assert (KE : k = if rem <? nth b bucketSizes 0 then pred b else b) by congruence. clear H. subst k.
  assert (NB : nth_error bucketSizes b = Some (nth b bucketSizes 0)).
  { apply nth_error_nth'. rewrite sizes_len. lia. }
  destruct (Z.ltb_spec rem (nth b bucketSizes 0)) as [D|D].
  - destruct b as [|b].
    + change (nth 0 bucketSizes 0) with 32 in D. lia.
    + cbn [pred]. destruct (nth_error bucketSizes b) as [s|] eqn:N.
      * exists s. split; auto. assert (s < r) by (apply (A b); auto). lia.
      * apply nth_error_None in N. rewrite sizes_len in N. lia.
  - exists (nth b bucketSizes 0). split; auto.
Qed.

Lemma leftover_greatest : forall max mmap rem, least_class bucketSizes mmap max -> 32 <= rem < mmap -> mmap <= 4194320 ->
  exists k, leftover max rem = Some k /\ greatest_below bucketSizes rem k.
Proof.
  intros max mmap rem L R MM. pose proof (least_lt _ _ L) as LM. unfold leftover.
  change (nth 0 bucketSizes 0) with 32.
  rewrite Z.mod_small by (change (2 ^ 32) with 4294967296; lia).
  destruct (Z.ltb_spec rem 32); [lia|].
  destruct (Bsearchl_ok rem max) as (b & E & B & A & G); [change (2 ^ 32) with 4294967296; lia | lia |].
  rewrite E. assert (LB : (b < NoBucketSizes)%nat) by lia.
  assert (NB : nth_error bucketSizes b = Some (nth b bucketSizes 0)).
  { apply nth_error_nth'. rewrite sizes_len. lia. }
  assert (GE : rem <= nth b bucketSizes 0).
  { destruct (Nat.eq_dec b max) as [->|].
    - destruct L as ((s & N & Q) & _). assert (s = nth max bucketSizes 0) by congruence. lia.
    - apply (G b); auto. lia. }
  destruct (Z.ltb_spec rem (nth b bucketSizes 0)) as [D|D].
  - destruct b as [|b].
    + change (nth 0 bucketSizes 0) with 32 in D. lia.
    + exists b. split; auto. destruct (nth_error bucketSizes b) as [s|] eqn:N.
      2:{ apply nth_error_None in N. rewrite sizes_len in N. lia. }
      split; [exists s; split; auto; assert (s < rem) by (apply (A b); auto); lia|].
      intros j s' J N'. destruct (Nat.eq_dec j (S b)) as [->|].
      * assert (s' = nth (S b) bucketSizes 0) by congruence. lia.
      * assert (nth (S b) bucketSizes 0 < s') by (apply (sizes_incr (S b) j); auto; lia). lia.
  - exists b. split; auto. split; [exists (nth b bucketSizes 0); auto|].
    intros j s' J N'. assert (nth b bucketSizes 0 < s') by (apply (sizes_incr b j); auto). lia.
Qed.
