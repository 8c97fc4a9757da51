From Coq Require Import List Arith ZArith Bool Lia ZifyBool.
From Verif.Vector2 Require Import Model Spec.
Import ListNotations.

Lemma put_length : forall A (l : list A) n x, length (put l n x) = length l.
Proof. induction l; destruct n; cbn [put length]; auto. Qed.

Lemma put_nth : forall A (l : list A) n m x, n < length l -> nth_error (put l n x) m = if m =? n then Some x else nth_error l m.
Proof. induction l as [|a l IH]; destruct n, m; cbn [put length nth_error Nat.eqb]; intros; try lia; auto. apply IH. lia. Qed.

Section T.
Context {T : Type}.
Notation vec := (@vec T). Notation seqn := (@seqn T).

Record rep (v : vec) (s : seqn) : Prop := {
  r_cap : length (buf v) = cap s;
  r_pos : 1 <= cap s;
  r_len : length (xs s) <= cap s;
  r_first : first v = match xs s with [] => None | _ => Some 0 end;
  r_end : end_ v = if length (xs s) =? cap s then 0 else length (xs s);
  r_buf : forall i x, nth_error (xs s) i = Some x -> nth_error (buf v) i = Some (Some x);
  r_ex : exits v = exs s;
  r_pm : permits v = pms s;
  r_exb : forall n k, In (n, Some k) (exs s) -> k < length (xs s);
  r_pmb : forall n k, In (n, k) (pms s) -> k < length (xs s)
}.

Lemma new_rep : forall c, 1 <= c -> rep (new c) (Seq [] c [] []).
Proof.
  intros c H. constructor; cbn; auto; try lia; try tauto.
  - apply repeat_length.
  - destruct c; [lia|reflexivity].
  - intros [|i]; discriminate.
Qed.

Lemma len_rep : forall v s, rep v s -> len v = length (xs s).
Proof.
  intros v s []. unfold len, capacity. rewrite r_first0, r_end0, r_cap0. destruct (xs s) as [|a l] eqn:E; [reflexivity|]. cbn [length] in *.
  destruct (Nat.eqb_spec (S (length l)) (cap s)); cbn [Nat.ltb Nat.leb]; lia.
Qed.

Lemma reduce_small : forall n i l, (i <= l)%Z -> reduce n i l = Some i.
Proof. intros n i l H. destruct n; cbn [reduce]; destruct (Z.ltb_spec l i); (lia || reflexivity). Qed.

Lemma find_rep : forall v s i, rep v s -> (0 <= i)%Z -> Z.to_nat i <= length (xs s) -> Z.to_nat i < cap s -> xs s <> [] -> find v i = Ok (Z.to_nat i).
Proof.
  intros v s i R H1 H2 H3 H4. unfold find. destruct (Z.ltb_spec i 0); [lia|]. rewrite (len_rep _ _ R), reduce_small by lia. rewrite (r_first _ _ R). destruct (xs s) eqn:E; [congruence|].
  unfold capacity. rewrite (r_cap _ _ R). cbn [plus]. destruct (Nat.ltb_spec (Z.to_nat i) (cap s)); [reflexivity|lia].
Qed.

Lemma find_ok : forall v s i, rep v s -> ok_index s i = true -> find v i = Ok (Z.to_nat i) /\ Z.to_nat i < length (xs s).
Proof.
  intros v s i R H. unfold ok_index in H. pose proof (r_len _ _ R). split; [|lia]. apply (find_rep _ s); auto; try lia. intros E. rewrite E in H. cbn in H. lia.
Qed.

Lemma nth_lt : forall A (l : list A) n x, nth_error l n = Some x -> n < length l.
Proof. intros. apply nth_error_Some. congruence. Qed.

Lemma gather_rep : forall v s n, rep v s -> n <= length (xs s) -> gather v n = Ok (map Some (firstn n (xs s))).
Proof.
  intros v s n R. induction n as [|n IH]; intros H; [reflexivity|]. cbn [gather]. rewrite IH by lia. cbn [bind]. pose proof (r_len _ _ R).
  rewrite (find_rep v s) by (auto; try lia; intros E; rewrite E in H; cbn in H; lia). cbn [bind]. rewrite Nat2Z.id.
  destruct (nth_error (xs s) n) as [x|] eqn:E; [|apply nth_error_None in E; lia]. rewrite (r_buf _ _ R _ _ E). f_equal. change [Some x] with (map Some [x]). rewrite <- map_app. f_equal.
  clear -E. revert n E. induction (xs s) as [|a l IH]; intros [|n] E; try discriminate; cbn in *; [injection E as ->; reflexivity|]. f_equal. apply IH. exact E.
Qed.

Lemma grow_rep : forall v s, rep v s -> length (xs s) = cap s -> exists v', grow v = Ok v' /\ rep v' (Seq (xs s) (2 * cap s) (exs s) (pms s)).
Proof.
  intros v s R F. unfold grow. rewrite (len_rep _ _ R), (gather_rep v s) by (auto; lia). cbn [bind]. rewrite firstn_all. unfold capacity. rewrite (r_cap _ _ R).
  pose proof (r_pos _ _ R). destruct (Nat.ltb_spec (length (xs s)) (2 * cap s)); [|lia]. eexists. split; [reflexivity|]. destruct R. constructor; cbn [buf first end_ exits permits xs cap exs pms]; auto; try lia.
  - rewrite app_length, map_length, repeat_length. lia.
  - destruct (xs s); [cbn in *; lia|reflexivity].
  - destruct (Nat.eqb_spec (length (xs s)) (2 * cap s)); [lia|reflexivity].
  - intros i x E. rewrite nth_error_app1 by (rewrite map_length; eapply nth_lt; exact E). apply map_nth_error. exact E.
Qed.

Lemma room_rep : forall v s, rep v s -> exs s = [] -> exists v', make_room v = Ok v' /\ rep v' (Seq (xs s) (room s) [] (pms s)) /\ length (xs s) < room s.
Proof.
  intros v s R E. unfold make_room, room. rewrite (r_ex _ _ R), E, (len_rep _ _ R). unfold capacity. rewrite (r_cap _ _ R). pose proof (r_len _ _ R). pose proof (r_pos _ _ R).
  destruct (Nat.eqb_spec (length (xs s)) (cap s)) as [F|F].
  - destruct (Nat.leb_spec (cap s) (length (xs s))); [|lia]. destruct (grow_rep v s R F) as (v' & G & R'). rewrite E in R'. exists v'. split; [exact G|]. split; [exact R'|lia].
  - destruct (Nat.leb_spec (cap s) (length (xs s))); [lia|]. exists v. split; [reflexivity|]. split; [|lia]. rewrite <- E. destruct s; exact R.
Qed.

Lemma push_rep : forall v s x, rep v s -> exs s = [] -> exists v', push_last v x = Ok v' /\ rep v' (Seq (xs s ++ [x]) (room s) [] (pms s)).
Proof.
  intros v s x R E. destruct (room_rep v s R E) as (w & M & R' & L). unfold push_last. rewrite M. cbn [bind]. clear M. set (s1 := Seq (xs s) (room s) [] (pms s)) in *.
  assert (EN : end_ w = length (xs s)) by (rewrite (r_end _ _ R'); cbn; destruct (Nat.eqb_spec (length (xs s)) (room s)); lia).
  pose proof (r_cap _ _ R') as CP. cbn in CP. unfold store. rewrite EN, CP. destruct (Nat.ltb_spec (length (xs s)) (room s)); [|lia]. cbn [bind]. eexists. split; [reflexivity|]. destruct R'.
  constructor; cbn [buf first end_ exits permits xs cap exs pms s1] in *; auto; try lia.
  - rewrite put_length. exact CP.
  - rewrite app_length. cbn. lia.
  - rewrite r_first0. destruct (xs s); reflexivity.
  - unfold advance, capacity. rewrite CP, app_length. cbn [length]. destruct (Nat.leb_spec (room s) (length (xs s) + 1)), (Nat.eqb_spec (length (xs s) + 1) (room s)); lia.
  - intros i y N. rewrite put_nth by lia. destruct (Nat.eqb_spec i (length (xs s))) as [->|D].
    + rewrite nth_error_app2, Nat.sub_diag in N by lia. injection N as ->. reflexivity.
    + apply r_buf0. rewrite nth_error_app1 in N; [exact N|]. apply nth_lt in N. rewrite app_length in N. cbn in N. lia.
  - intros n k [].
  - intros n k N. apply r_pmb0 in N. rewrite app_length. lia.
Qed.

Lemma bubble_spec : forall n b from, n <= from -> from < length b -> exists b', bubble b from n = Ok b' /\ length b' = length b /\
  forall j, nth_error b' j = if (from - n <? j) && (j <=? from) then nth_error b (j - 1) else @nth_error (option T) b j.
Proof.
  induction n as [|n IH]; intros b from H L.
  - exists b. split; [reflexivity|]. split; [reflexivity|]. intros j. destruct ((from - 0 <? j) && (j <=? from)) eqn:E; [lia|reflexivity].
  - cbn [bubble]. unfold copy. destruct (nth_error b (from - 1)) as [y|] eqn:Y; [|apply nth_error_None in Y; lia]. unfold store. destruct (Nat.ltb_spec from (length b)); [|lia]. cbn [bind].
    destruct (IH (put b from y) (from - 1)) as (b' & B & LB & N); [lia|rewrite put_length; lia|]. exists b'. split; [exact B|]. split; [rewrite LB; apply put_length|]. intros j. rewrite N, !put_nth by lia.
    destruct ((from - 1 - n <? j) && (j <=? from - 1)) eqn:E1, ((from - S n <? j) && (j <=? from)) eqn:E2, (Nat.eqb_spec j from), (Nat.eqb_spec (j - 1) from); try lia; try reflexivity.
    subst j. symmetry. exact Y.
Qed.

Lemma insert_nth : forall (l : list T) k x i, k <= length l -> nth_error (firstn k l ++ x :: skipn k l) i = if i <? k then nth_error l i else if i =? k then Some x else nth_error l (i - 1).
Proof.
  intros l k x i H. assert (LF : length (firstn k l) = k) by (rewrite firstn_length; lia). destruct (Nat.ltb_spec i k).
  - rewrite nth_error_app1 by lia. clear LF. revert k i H H0. induction l as [|a l IH]; intros [|k] [|i] H H0; cbn in *; try lia; try reflexivity. apply IH; lia.
  - rewrite nth_error_app2 by lia. rewrite LF. destruct (Nat.eqb_spec i k) as [->|D]; [rewrite Nat.sub_diag; reflexivity|].
    replace (i - k) with (S (i - k - 1)) by lia. cbn [nth_error]. clear LF. replace (i - 1) with (k + (i - k - 1)) by lia. generalize (i - k - 1). intros m. clear. revert k. induction l as [|a l IH]; intros [|k]; cbn; try reflexivity; [destruct m; reflexivity|apply IH].
Qed.

Lemma insert_rep : forall v s i x, rep v s -> exs s = [] -> xs s <> [] -> (0 <= i <= Z.of_nat (length (xs s)))%Z ->
  (pms s = [] \/ Z.to_nat i <> 0 \/ S (length (xs s)) <> room s) ->
  exists v', insert_before v i x = Ok v' /\
    rep v' (Seq (firstn (Z.to_nat i) (xs s) ++ x :: skipn (Z.to_nat i) (xs s)) (room s) [] (map (fun p => (fst p, if Z.to_nat i <=? snd p then S (snd p) else snd p)) (pms s))).
Proof.
  intros v s i x R E NE HI PC. destruct (room_rep v s R E) as (w & M & R' & L). unfold insert_before. rewrite M. cbn [bind]. clear M. set (s1 := Seq (xs s) (room s) [] (pms s)) in *.
  assert (EN : end_ w = length (xs s)) by (rewrite (r_end _ _ R'); cbn; destruct (Nat.eqb_spec (length (xs s)) (room s)); lia).
  pose proof (r_cap _ _ R') as CP. cbn in CP. rewrite (find_rep w s1) by (auto; cbn; lia). cbn [bind]. set (k := Z.to_nat i) in *. assert (HK : k <= length (xs s)) by lia.
  rewrite EN. destruct (Nat.ltb_spec (length (xs s)) k); [lia|]. destruct (bubble_spec (length (xs s) - k) (buf w) (length (xs s))) as (b & B & LB & NB); [lia|lia|]. rewrite B. cbn [bind].
  unfold store. rewrite LB, CP. destruct (Nat.ltb_spec k (room s)); [|lia]. cbn [bind]. eexists. split; [reflexivity|].
  assert (LI : length (firstn k (xs s) ++ x :: skipn k (xs s)) = S (length (xs s))) by (rewrite app_length; cbn [length]; rewrite firstn_length, skipn_length; lia).
  destruct R'. constructor; cbn [buf first end_ exits permits xs cap exs pms s1] in *; auto; try lia.
  - rewrite put_length. lia.
  - rewrite r_first0. destruct (xs s) as [|a l]; [congruence|]. destruct k; reflexivity.
  - rewrite LI. unfold capacity. rewrite CP. destruct (Nat.eqb_spec (length (xs s) + 1) (room s)), (Nat.eqb_spec (S (length (xs s))) (room s)); lia.
  - intros j y H1. rewrite put_nth by lia. rewrite insert_nth in H1 by exact HK. destruct (Nat.ltb_spec j k).
    + destruct (Nat.eqb_spec j k); [lia|]. rewrite NB. destruct ((length (xs s) - (length (xs s) - k) <? j) && (j <=? length (xs s))) eqn:Q; [lia|]. apply r_buf0. exact H1.
    + destruct (Nat.eqb_spec j k) as [->|D]; [congruence|]. rewrite NB. pose proof (nth_lt _ _ _ _ H1).
      destruct ((length (xs s) - (length (xs s) - k) <? j) && (j <=? length (xs s))) eqn:Q; [|lia]. apply r_buf0. exact H1.
  - rewrite r_pm0. apply map_ext_in. intros [n o] I. cbn [fst snd]. f_equal. pose proof (r_pmb0 _ _ I) as LO. unfold in_range, advance, capacity. rewrite CP.
    assert (PN : k <> 0 \/ S (length (xs s)) <> room s) by (destruct PC as [P|P]; [rewrite P in I; destruct I|exact P]).
    destruct (Nat.eqb_spec (length (xs s) + 1) (room s)) as [F|F].
    + destruct (Nat.eqb_spec k 0) as [Z|Z]; [lia|]. destruct (Nat.ltb_spec k 0); [lia|]. cbn [orb Nat.ltb Nat.leb]. destruct (Nat.leb_spec k o); [|reflexivity]. destruct (Nat.leb_spec (room s) (o + 1)); lia.
    + destruct (Nat.eqb_spec k (length (xs s) + 1)); [lia|]. destruct (Nat.ltb_spec k (length (xs s) + 1)); [|lia]. destruct (Nat.leb_spec k o); cbn [andb]; [|reflexivity].
      destruct (Nat.ltb_spec o (length (xs s) + 1)); [|lia]. destruct (Nat.leb_spec (room s) (o + 1)); lia.
  - intros n o [].
  - intros n o H1. rewrite LI. apply in_map_iff in H1. destruct H1 as ([n' o'] & Q & I). injection Q as <- <-. pose proof (r_pmb0 _ _ I). cbn [snd]. destruct (k <=? o'); lia.
Qed.

Lemma set_len : forall i (x : T) l, i < length l -> length (set_nth i x l) = length l.
Proof. intros. unfold set_nth. rewrite app_length. cbn [length]. rewrite firstn_length, skipn_length. lia. Qed.

Lemma set_get : forall i (x : T) l j, i < length l -> nth_error (set_nth i x l) j = if j =? i then Some x else nth_error l j.
Proof.
  intros i x l j H. unfold set_nth. revert i j H. induction l as [|a l IH]; intros [|i] [|j] H; cbn [length] in *; try lia; try reflexivity; cbn [firstn skipn app nth_error Nat.eqb].
  - apply IH. lia.
Qed.

Lemma set_rep : forall v s i x, rep v s -> i < length (xs s) -> store (buf v) i (Some x) = Ok (put (buf v) i (Some x)) /\
  rep (with_buf v (put (buf v) i (Some x))) (Seq (set_nth i x (xs s)) (cap s) (exs s) (pms s)).
Proof.
  intros v s i x R L. pose proof (r_len _ _ R). pose proof (r_cap _ _ R). split.
  - unfold store. destruct (Nat.ltb_spec i (length (buf v))); [reflexivity|lia].
  - destruct R. constructor; cbn [with_buf buf first end_ exits permits xs cap exs pms]; rewrite ?set_len by exact L; auto.
    + rewrite put_length. assumption.
    + rewrite r_first0. destruct (xs s) as [|a l]; [cbn in L; lia|]. destruct i; reflexivity.
    + intros j y N. rewrite set_get in N by exact L. rewrite put_nth by lia. destruct (j =? i); [congruence|auto].
Qed.

Lemma assoc_in : forall A (l : list (nat * A)) n a, assoc l n = Some a -> exists m, In (m, a) l.
Proof. intros A l n a H. unfold assoc in H. destruct (List.find (fun p => fst p =? n) l) as [[m b]|] eqn:E; [|discriminate]. injection H as <-. apply find_some in E. exists m. apply E. Qed.

Lemma drop_in : forall A (l : list (nat * A)) n m a, In (m, a) (drop l n) -> In (m, a) l.
Proof. intros A l n m a H. apply filter_In in H. apply H. Qed.

Lemma rep_ex : forall v s l, rep v s -> (forall n k, In (n, Some k) l -> k < length (xs s)) -> rep (with_exits v l) (Seq (xs s) (cap s) l (pms s)).
Proof. intros v s l [] H. constructor; auto. Qed.

Lemma rep_pm : forall v s l, rep v s -> (forall n k, In (n, k) l -> k < length (xs s)) -> rep (with_permits v l) (Seq (xs s) (cap s) (exs s) l).
Proof. intros v s l [] H. constructor; auto. Qed.

Lemma step_rep : forall v s o s' r, rep v s -> spec s o = Some (s', r) -> exists v', step v o = Ok (v', r) /\ rep v' s'.
Proof.
  intros v s o s' r R H. assert (SE : forall A B (a : A) (b : B), (a, b) = (a, b)) by reflexivity.
  destruct o as [x|i x|i|i x| | |n i|n|n|n i|n|n|n x|n|n]; cbn [spec step] in *.
  - destruct (exs s) eqn:E; [|discriminate]. injection H as <- <-. destruct (push_rep v s x R E) as (v' & P & R'). rewrite P. cbn [bind]. eauto.
  - destruct (exs s) eqn:E; [|discriminate]. destruct (xs s) as [|a l] eqn:X; [discriminate|]. rewrite <- X in *. destruct (_ && _) eqn:C in H; [|discriminate]. injection H as <- <-.
    apply andb_prop in C. destruct C as [C C3]. apply andb_prop in C. destruct C as [C1 C2].
    destruct (insert_rep v s i x R E) as (v' & P & R'); [congruence|lia| |rewrite P; cbn [bind]; eauto]. destruct (pms s); [auto|right]. lia.
  - destruct (ok_index s i) eqn:I; [|discriminate]. destruct (find_ok v s i R I) as [F L]. destruct (nth_error (xs s) (Z.to_nat i)) as [x|] eqn:X; [|discriminate]. injection H as <- <-. rewrite F. cbn [bind]. unfold load. rewrite (r_buf _ _ R _ _ X). cbn [bind]. eauto.
  - destruct (ok_index s i) eqn:I; [|discriminate]. destruct (find_ok v s i R I) as [F L]. injection H as <- <-. rewrite F. cbn [bind]. destruct (set_rep v s (Z.to_nat i) x R L) as [S1 S2]. rewrite S1. cbn [bind]. eauto.
  - injection H as <- <-. rewrite (len_rep _ _ R). eauto.
  - injection H as <- <-. unfold capacity. rewrite (r_cap _ _ R). eauto.
  - destruct (ok_index s i) eqn:I; [|discriminate]. destruct (find_ok v s i R I) as [F L]. injection H as <- <-. rewrite F. cbn [bind]. eexists. split; [reflexivity|]. rewrite (r_pm _ _ R). apply rep_pm; [exact R|].
    intros m k [Q|Q]; [injection Q as <- <-; exact L|exact (r_pmb _ _ R _ _ Q)].
  - rewrite (r_pm _ _ R). destruct (assoc (pms s) n) as [k|]; [|discriminate]. destruct (nth_error (xs s) k) as [x|] eqn:X; [|discriminate]. injection H as <- <-. unfold load. rewrite (r_buf _ _ R _ _ X). cbn [bind]. eauto.
  - injection H as <- <-. eexists. split; [reflexivity|]. rewrite (r_pm _ _ R). apply rep_pm; [exact R|]. intros m k Q. apply drop_in in Q. exact (r_pmb _ _ R _ _ Q).
  - destruct (ok_index s i) eqn:I; [|discriminate]. destruct (find_ok v s i R I) as [F L]. injection H as <- <-. rewrite F. cbn [bind]. eexists. split; [reflexivity|]. rewrite (r_ex _ _ R). apply rep_ex; [exact R|].
    intros m k [Q|Q]; [injection Q as <- <-; exact L|exact (r_exb _ _ R _ _ Q)].
  - injection H as <- <-. eexists. split; [reflexivity|]. rewrite (r_ex _ _ R). apply rep_ex; [exact R|]. intros m k [Q|Q]; [discriminate|exact (r_exb _ _ R _ _ Q)].
  - rewrite (r_ex _ _ R). destruct (assoc (exs s) n) as [[k|]|]; [|discriminate|discriminate]. destruct (nth_error (xs s) k) as [x|] eqn:X; [|discriminate]. injection H as <- <-. unfold load. rewrite (r_buf _ _ R _ _ X). cbn [bind]. eauto.
  - rewrite (r_ex _ _ R). destruct (assoc (exs s) n) as [[k|]|]; [|discriminate|discriminate]. destruct (Nat.ltb_spec k (length (xs s))) as [L|]; [|discriminate]. injection H as <- <-.
    destruct (set_rep v s k x R L) as [S1 S2]. rewrite S1. cbn [bind]. eauto.
  - rewrite (r_ex _ _ R). destruct (assoc (exs s) n) as [i|] eqn:A; [|discriminate]. destruct (Nat.ltb_spec (length (xs s)) (cap s)) as [L|]; [|discriminate].
    destruct (match i with Some _ => _ | None => _ end) eqn:C in H; [|discriminate]. injection H as <- <-.
    assert (MN : move_next v i = Ok (if match i with None => 0 | Some k => S k end <? length (xs s) then (Some match i with None => 0 | Some k => S k end, true) else (None, false))).
    { unfold move_next, capacity. rewrite (r_first _ _ R), (r_end _ _ R), (r_cap _ _ R). destruct (Nat.eqb_spec (length (xs s)) (cap s)); [lia|]. destruct (xs s) as [|a l] eqn:X.
      - destruct i; [discriminate|reflexivity].
      - cbn [length]. destruct (Nat.ltb_spec 0 (S (length l))); [|lia]. destruct i as [k|].
        + assert (KL : k < S (length l)). { destruct (assoc_in _ _ _ _ A) as (m & I). apply (r_exb _ _ R) in I. rewrite X in I. exact I. }
          cbn [length] in L. destruct (Nat.ltb_spec (cap s) (k + 1)); [lia|]. replace (k + 1) with (S k) by lia. destruct (Nat.leb_spec (S (length l)) (S k)), (Nat.ltb_spec (S k) (S (length l))); try lia; reflexivity.
        + reflexivity. }
    rewrite MN. set (k := match i with None => 0 | Some k => S k end) in *. destruct (Nat.ltb_spec k (length (xs s))); cbn [bind fst snd]; (eexists; split; [reflexivity|]; apply rep_ex; [exact R|]).
    + intros m j [Q|Q]; [injection Q as <- <-; assumption|apply drop_in in Q; exact (r_exb _ _ R _ _ Q)].
    + intros m j [Q|Q]; [discriminate|apply drop_in in Q; exact (r_exb _ _ R _ _ Q)].
  - injection H as <- <-. eexists. split; [reflexivity|]. rewrite (r_ex _ _ R). apply rep_ex; [exact R|]. intros m k Q. apply drop_in in Q. exact (r_exb _ _ R _ _ Q).
Qed.

Lemma steps_rep : forall l v s s' r, rep v s -> specs s l = Some (s', r) -> exists v', steps v l = Ok (v', r) /\ rep v' s'.
Proof.
  induction l as [|o l IH]; intros v s s' r R H; cbn [specs steps] in *; [injection H as <- <-; eauto|].
  destruct (spec s o) as [[s1 r1]|] eqn:S1; [|discriminate]. destruct (specs s1 l) as [[s2 q]|] eqn:S2; [|discriminate]. injection H as <- <-.
  destruct (step_rep v s o s1 r1 R S1) as (v1 & E1 & R1). destruct (IH v1 s1 s2 q R1 S2) as (v2 & E2 & R2). rewrite E1. cbn [bind fst snd]. rewrite E2. cbn [bind fst snd]. eauto.
Qed.
End T.
