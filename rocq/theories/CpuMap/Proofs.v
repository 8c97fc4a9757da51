From Coq Require Import Ascii String ZArith List Bool Arith Lia Permutation.
From Verif Require Import CpuMap.Model CpuMap.Spec CpuMap.Range.
Import ListNotations.
Local Open Scope nat_scope.

(** ** sorted pairs *)
Definition cntlt (k : nat) (q : list (nat * nat)) : nat := length (filter (fun p => snd p <? k) q).
Definition cnteq (k : nat) (q : list (nat * nat)) : nat := length (filter (fun p => snd p =? k) q).
Lemma cntlt_S k q : cntlt (S k) q = cntlt k q + cnteq k q.
Proof.
  unfold cntlt, cnteq. induction q as [|p q IH]; [reflexivity|]. cbn [filter].
  destruct (Nat.ltb_spec (snd p) (S k)), (Nat.ltb_spec (snd p) k), (Nat.eqb_spec (snd p) k); cbn [length]; lia.
Qed.
Lemma cnteq_app k a b : cnteq k (a ++ b) = cnteq k a + cnteq k b.
Proof. unfold cnteq. rewrite filter_app, app_length. reflexivity. Qed.
Lemma cntlt_app k a b : cntlt k (a ++ b) = cntlt k a + cntlt k b.
Proof. unfold cntlt. rewrite filter_app, app_length. reflexivity. Qed.
Lemma cntlt_0 k q : (forall p, In p q -> k <= snd p) -> cntlt k q = 0.
Proof.
  unfold cntlt. intros H. induction q as [|p q IH]; [reflexivity|]. cbn [filter]. destruct (Nat.ltb_spec (snd p) k) as [L|L].
  - specialize (H p (or_introl eq_refl)). lia.
  - apply IH. intros x X. apply H. right. exact X.
Qed.
Lemma cnt_all k q : (forall p, In p q -> snd p <= k) -> cntlt k q + cnteq k q = length q.
Proof.
  intros H. rewrite <- cntlt_S. unfold cntlt. induction q as [|p q IH]; [reflexivity|]. cbn [filter].
  destruct (Nat.ltb_spec (snd p) (S k)) as [L|L]; [cbn [length]; f_equal; apply IH; intros x X; apply H; right; exact X|]. specialize (H p (or_introl eq_refl)). lia.
Qed.
Lemma sorted_mid pre p post : sorted (pre ++ p :: post) -> (forall x, In x pre -> snd x <= snd p) /\ (forall x, In x post -> snd p <= snd x).
Proof.
  intros S0. split.
  - intros x X. apply in_split in X as (a & b & ->). apply (S0 a x (b ++ p :: post)); [rewrite <- app_assoc; reflexivity|]. apply in_or_app. right. left. reflexivity.
  - intros x X. apply (S0 pre p post eq_refl x X).
Qed.

(** ** where the caches start *)
Definition seen (pre : list (nat * nat)) (k : nat) : bool := existsb (fun y => k =? snd y) pre.
Lemma seen_in pre k : seen pre k = true <-> exists c, In (c, k) pre.
Proof.
  unfold seen. rewrite existsb_exists. split.
  - intros ((c, k') & I0 & E0). apply Nat.eqb_eq in E0. cbn in E0. subst. exists c. exact I0.
  - intros (c & I0). exists (c, k). split; [exact I0|apply Nat.eqb_refl].
Qed.
Lemma seen_snoc a c k j : seen (a ++ [(c, k)]) j = seen a j || (j =? k). Proof. unfold seen. rewrite existsb_app. cbn [existsb snd]. rewrite orb_false_r. reflexivity. Qed.
Lemma filter_len_ext {A} (f g : A -> bool) l : (forall x, In x l -> f x = g x) -> length (filter f l) = length (filter g l).
Proof. intros H. rewrite (filter_ext_in f g l H). reflexivity. Qed.
Lemma starts_pre w q : sorted q -> (forall c k, In (c, k) q -> w k = cnteq k q) -> forall pre post, q = pre ++ post ->
  let (st, it) := fold_left (start_step w) pre (fun _ => None, 0) in
  (forall k, st k = if seen pre k then Some (cntlt k q) else None) /\ it = length (filter (fun x => seen pre (snd x)) q).
Proof.
  intros S0 W. induction pre as [|[c k] pre IH] using rev_ind; intros post E0.
  - cbn [fold_left]. split; [reflexivity|]. cbn [seen existsb]. induction q; [reflexivity|]. clear. induction (a :: q) as [|x l IH]; [reflexivity|exact IH].
  - rewrite <- app_assoc in E0. specialize (IH _ E0). rewrite fold_left_app. destruct (fold_left (start_step w) pre (fun _ => None, 0)) as [st it]. destruct IH as [I1 I2].
    cbn [fold_left app] in *. unfold start_step. cbn [snd]. rewrite I1. assert (S1 := S0). rewrite E0 in S1. apply sorted_mid in S1 as [P1 P2]. cbn [snd] in *.
    assert (Iq : In (c, k) q) by (rewrite E0; apply in_or_app; right; left; reflexivity).
    destruct (seen pre k) eqn:Sk.
    + split.
      * intros j. rewrite seen_snoc, I1. destruct (Nat.eqb_spec j k) as [->|N]; [rewrite Sk; reflexivity|]. rewrite !orb_false_r. reflexivity.
      * rewrite I2. apply filter_len_ext. intros x _. rewrite seen_snoc. destruct (Nat.eqb_spec (snd x) k) as [->|N]; [rewrite Sk; reflexivity|]. rewrite !orb_false_r. reflexivity.
    + assert (It : it = cntlt k q).
      { rewrite I2. apply filter_len_ext. intros x X. destruct (Nat.ltb_spec (snd x) k) as [L|L].
        - apply seen_in. exists (fst x). rewrite E0 in X. apply in_app_or in X as [X|[X|X]]; [destruct x; exact X|subst x; cbn in L; lia|specialize (P2 x X); lia].
        - destruct (seen pre (snd x)) eqn:Sx; [|reflexivity]. apply seen_in in Sx as (d & D). specialize (P1 _ D). cbn in P1. assert (snd x = k) by lia.
          exfalso. assert (T : seen pre k = true) by (apply seen_in; exists d; congruence). congruence. }
      split.
      * intros j. unfold upd. rewrite seen_snoc, I1. destruct (Nat.eqb_spec j k) as [->|N]; [rewrite It, orb_true_r; reflexivity|]. rewrite !orb_false_r. reflexivity.
      * rewrite It, (W c k Iq), <- cntlt_S. apply filter_len_ext. intros x X. rewrite seen_snoc.
        destruct (Nat.ltb_spec (snd x) (S k)) as [L|L]; destruct (Nat.eqb_spec (snd x) k) as [Q|Q]; rewrite ?orb_true_r, ?orb_false_r; try reflexivity; try lia; symmetry.
        -- apply seen_in. exists (fst x). rewrite E0 in X. apply in_app_or in X as [X|[X|X]]; [destruct x; exact X|subst x; cbn in Q; lia|specialize (P2 x X); lia].
        -- destruct (seen pre (snd x)) eqn:Sx; [|reflexivity]. apply seen_in in Sx as (d & D). specialize (P1 _ D). cbn in P1. lia.
Qed.
Lemma starts_ok w q : sorted q -> (forall c k, In (c, k) q -> w k = cnteq k q) -> forall c k, In (c, k) q -> fst (starts w q) k = Some (cntlt k q).
Proof.
  intros S0 W c k I0. assert (H := starts_pre w q S0 W q [] (eq_sym (app_nil_r q))). unfold starts. destruct (fold_left _ _ _) as [st it]. destruct H as [H _]. cbn [fst]. rewrite H.
  assert (T : seen q k = true) by (apply seen_in; exists c; exact I0). rewrite T. reflexivity.
Qed.

(** ** the entries: the processor at position i of the sorted pairs gets self = i *)
Lemma entries_pre n w q : sorted q -> (forall c k, In (c, k) q -> w k = cnteq k q) -> (forall c k, In (c, k) q -> c < n) -> NoDup (map fst q) -> forall pre post, q = pre ++ post ->
  exists en cn, fold_left (entry_step n w (fst (starts w q))) pre (Some (fun _ => None, fun _ => 0)) = Some (en, cn) /\
    (forall k, cn k = cnteq k pre) /\ (forall i c k, nth_error pre i = Some (c, k) -> en c = Some (E i (cntlt k q) (w k) k)).
Proof.
  intros S0 W B D. induction pre as [|[c k] pre IH] using rev_ind; intros post E0.
  - eexists _, _. split; [reflexivity|]. split; [reflexivity|]. intros [|i] c k H; discriminate.
  - rewrite <- app_assoc in E0. destruct (IH _ E0) as (en & cn & F & I1 & I2). rewrite fold_left_app, F. cbn [fold_left app] in *.
    assert (Iq : In (c, k) q) by (rewrite E0; apply in_or_app; right; left; reflexivity).
    unfold entry_step. rewrite (starts_ok w q S0 W c k Iq). destruct (Nat.ltb_spec c n) as [L|L]; [|specialize (B c k Iq); lia].
    eexists _, _. split; [reflexivity|]. split.
    + intros j. assert (One : cnteq j [(c, k)] = if j =? k then 1 else 0) by (unfold cnteq; cbn [filter snd]; rewrite (Nat.eqb_sym k j); destruct (j =? k); reflexivity).
      rewrite cnteq_app, One, I1. destruct (j =? k); lia.
    + intros i d j H. destruct (Nat.lt_ge_cases i (length pre)) as [Li|Li].
      * rewrite nth_error_app1 in H by exact Li. unfold upd. destruct (Nat.eqb_spec d c) as [->|N]; [|apply I2, H]. exfalso.
        apply nth_error_In in H. rewrite E0, map_app in D. cbn [map fst] in D. apply NoDup_remove_2 in D. apply D. apply in_or_app. left. apply (in_map fst) in H. exact H.
      * rewrite nth_error_app2 in H by exact Li. destruct (i - length pre) as [|m] eqn:M; [|destruct m; discriminate]. injection H as <- <-. unfold upd. rewrite Nat.eqb_refl. do 2 f_equal.
        rewrite I1. assert (S1 := S0). rewrite E0 in S1. apply sorted_mid in S1 as [P1 P2]. cbn [snd] in *.
        rewrite E0, cntlt_app. rewrite (cntlt_0 k ((c, k) :: post)) by (intros x [<-|X]; [cbn; lia|apply P2, X]). assert (A := cnt_all k pre P1). lia.
Qed.
Lemma entries_ok n w q : sorted q -> (forall c k, In (c, k) q -> w k = cnteq k q) -> (forall c k, In (c, k) q -> c < n) -> NoDup (map fst q) ->
  exists en, entries n w q = Some en /\ (forall i c k, nth_error q i = Some (c, k) -> en c = Some (E i (cntlt k q) (w k) k)).
Proof.
  intros S0 W B D. destruct (entries_pre n w q S0 W B D q [] (eq_sym (app_nil_r q))) as (en & cn & F & _ & H). exists en. unfold entries. rewrite F. auto.
Qed.

(** ** the steps before *)
Lemma teqb_eq a b : teqb a b = true <-> a = b.
Proof.
  unfold teqb. rewrite String.eqb_eq. split; [|intros ->; reflexivity]. intros H. rewrite <- (list_ascii_of_string_of_list_ascii a), <- (list_ascii_of_string_of_list_ascii b), H. reflexivity.
Qed.
Lemma teqb_refl a : teqb a a = true. Proof. apply teqb_eq. reflexivity. Qed.
Lemma mapM_ok {A B} (f : A -> option B) g l : (forall x, In x l -> f x = Some (g x)) -> mapM f l = Some (map g l).
Proof.
  intros H. induction l as [|x l IH]; [reflexivity|]. unfold mapM in *. cbn [fold_right map]. rewrite (H x (or_introl eq_refl)), IH; [reflexivity|]. intros y Y. apply H. right. exact Y.
Qed.
Lemma fold_upd {A} (step : option (nat -> option A) -> nat -> option (nat -> option A)) (v : nat -> A) l :
  (forall f i, In i l -> step (Some f) i = Some (upd f i (v i))) -> forall f0,
  exists f, fold_left step l (Some f0) = Some f /\ forall i, f i = if existsb (Nat.eqb i) l then Some (v i) else f0 i.
Proof.
  induction l as [|x l IH]; intros H f0; [exists f0; auto|]. cbn [fold_left]. rewrite H by (left; reflexivity).
  destruct (IH ltac:(intros; apply H; right; assumption) (upd f0 x (v x))) as (f & F & V). exists f. split; [exact F|]. intros i. rewrite V. cbn [existsb]. unfold upd.
  destruct (Nat.eqb_spec i x) as [->|N]; cbn [orb]; [destruct (existsb (Nat.eqb x) l); reflexivity|reflexivity].
Qed.
Lemma ex_seq i n : i < n -> existsb (Nat.eqb i) (seq 0 n) = true.
Proof. intros H. apply existsb_exists. exists i. split; [apply in_seq; lia|apply Nat.eqb_refl]. Qed.
Lemma raw_ok n llc : exists f, raw_table n (seq 0 n) llc = Some f /\ forall i, i < n -> f i = Some (llc i).
Proof.
  unfold raw_table. destruct (fold_upd (fun acc i => match acc with Some f => if i <? n then Some (upd f i (llc i)) else None | None => None end) llc (seq 0 n)) with (f0 := fun _ : nat => @None text) as (f & F & V).
  - intros f i I0. apply in_seq in I0. destruct (Nat.ltb_spec i n); [reflexivity|lia].
  - exists f. split; [exact F|]. intros i L. rewrite V, ex_seq by exact L. reflexivity.
Qed.
Lemma distinct_acc l : forall m, NoDup m -> let d := fold_left (fun maps x => if existsb (teqb x) maps then maps else maps ++ [x]) l m in NoDup d /\ forall x, In x d <-> In x m \/ In x l.
Proof.
  induction l as [|y l IH]; intros m N; cbn [fold_left]; [cbn; split; [exact N|intros; tauto]|].
  destruct (existsb (teqb y) m) eqn:Ey.
  - destruct (IH m N) as [A B]. split; [exact A|]. intros x. rewrite B. cbn [In]. apply existsb_exists in Ey as (z & Z1 & Z2). apply teqb_eq in Z2. subst z. split; [tauto|]. intros [?|[<-|?]]; tauto.
  - assert (Ny : ~ In y m). { intros I0. assert (T : existsb (teqb y) m = true) by (apply existsb_exists; exists y; split; [exact I0|apply teqb_refl]). congruence. }
    destruct (IH (m ++ [y])) as [A B].
    + apply NoDup_rev in N. rewrite <- (rev_involutive m), <- (rev_involutive [y]), <- rev_app_distr. apply NoDup_rev. cbn. constructor; [rewrite <- in_rev; exact Ny|exact N].
    + split; [exact A|]. intros x. rewrite B, in_app_iff. cbn [In]. tauto.
Qed.
Lemma distinct_ok l : NoDup (distinct l) /\ forall x, In x (distinct l) <-> In x l.
Proof. destruct (distinct_acc l [] (NoDup_nil _)) as [A B]. split; [exact A|]. intros x. unfold distinct. rewrite B. cbn. tauto. Qed.
Lemma index_ok x maps : forall j, In x maps -> exists i, index x maps j = Some (j + i) /\ nth_error maps i = Some x.
Proof.
  induction maps as [|y r IH]; intros j I0; [destruct I0|]. cbn [index]. destruct (teqb x y) eqn:T.
  - apply teqb_eq in T. subst y. exists 0. rewrite Nat.add_0_r. auto.
  - destruct I0 as [->|I0]; [rewrite teqb_refl in T; discriminate|]. destruct (IH (S j) I0) as (i & A & B). exists (S i). rewrite A. split; [f_equal; lia|exact B].
Qed.
Definition id_of (maps : list text) (llc : nat -> text) (c : nat) : nat := match index (llc c) maps 0 with Some j => j | None => 0 end.
Lemma id_nth maps llc c : In (llc c) maps -> nth_error maps (id_of maps llc c) = Some (llc c) /\ index (llc c) maps 0 = Some (id_of maps llc c).
Proof. intros I0. unfold id_of. destruct (index_ok _ _ 0 I0) as (i & A & B). rewrite A. cbn [Nat.add]. auto. Qed.
Lemma id_eq maps llc c d : In (llc c) maps -> In (llc d) maps -> id_of maps llc c = id_of maps llc d <-> llc c = llc d.
Proof.
  intros C D. split; [|unfold id_of; intros ->; reflexivity]. intros H. destruct (id_nth _ _ _ C) as [A _]. destruct (id_nth _ _ _ D) as [B _]. congruence.
Qed.
Lemma pairings_ok n llc raw maps : (forall i, i < n -> raw i = Some (llc i)) -> (forall i, i < n -> In (llc i) maps) ->
  pairings n (seq 0 n) raw maps = Some (map (fun c => (c, id_of maps llc c)) (seq 0 n)).
Proof.
  intros R0 M. unfold pairings.
  match goal with |- context [fold_left ?f _ _] => destruct (fold_upd f (fun c => (c, id_of maps llc c)) (seq 0 n)) with (f0 := fun _ : nat => @None (nat * nat)) as (g & G & V) end.
  - intros f i I0. apply in_seq in I0. rewrite R0 by lia. destruct (id_nth maps llc i (M i ltac:(lia))) as [_ ->]. reflexivity.
  - rewrite G. apply mapM_ok. intros i I0. apply in_seq in I0. rewrite V, ex_seq by lia. reflexivity.
Qed.
Lemma mapM_nth_gen {A} (q : list A) : forall l, mapM (nth_error (l ++ q)) (seq (length l) (length q)) = Some q.
Proof.
  induction q as [|x q IH]; intros l; [reflexivity|]. cbn [length seq]. unfold mapM in *. cbn [fold_right]. rewrite nth_error_app2, Nat.sub_diag by lia. cbn [nth_error].
  specialize (IH (l ++ [x])). rewrite <- app_assoc, app_length in IH. cbn [app length] in IH. rewrite Nat.add_1_r in IH. rewrite IH. reflexivity.
Qed.
Lemma mapM_nth {A} (q : list A) : mapM (nth_error q) (seq 0 (length q)) = Some q. Proof. apply (mapM_nth_gen q []). Qed.
Lemma to_nat_list n : map Z.to_nat (cpus_of n) = seq 0 n.
Proof. unfold cpus_of. rewrite map_map. rewrite <- (map_id (seq 0 n)) at 2. apply map_ext. intros. lia. Qed.
Lemma cpus_len n : length (cpus_of n) = n. Proof. unfold cpus_of. rewrite map_length, seq_length. reflexivity. Qed.

Lemma filter_len_le {A} (f : A -> bool) l : length (filter f l) <= length l.
Proof. induction l as [|x l IH]; [cbn; lia|]. cbn [filter]. destruct (f x); cbn [length]; lia. Qed.
Lemma llc_width n llc c : topology n llc -> (Z.of_nat n < 2 ^ 32)%Z -> c < n -> read_width (llc c) = Some (Z.of_nat (length (sharing n llc c))).
Proof.
  intros [_ T] B L. destruct (T c L) as (rs & N & W & -> & Q). unfold read_width. rewrite width_list by (try assumption; lia). rewrite Q, map_length. f_equal. apply Z.mod_small.
  assert (H := filter_len_le (fun d => teqb (llc d) (llc c)) (seq 0 n)). rewrite seq_length in H. unfold sharing. lia.
Qed.

Section Map.
Variables (n : nat) (llc : nat -> text) (rs : list range).
Hypothesis Top : topology n llc.
Hypothesis Small : (Z.of_nat n < 2 ^ 32)%Z.
Hypothesis Ne : rs <> [].
Hypothesis Wf : Forall wf rs.
Hypothesis El : elements rs = cpus_of n.
Let maps := distinct (map llc (seq 0 n)).
Let id := id_of maps llc.
Let p := map (fun c => (c, id c)) (seq 0 n).
Lemma in_maps c : c < n -> In (llc c) maps.
Proof. intros L. unfold maps. apply distinct_ok. apply in_map, in_seq. lia. Qed.
Lemma prepare_ok : prepare (list_text rs) llc = Some (n, seq 0 n, maps, p).
Proof.
  unfold prepare, range_iter, read_width. rewrite iter_list, width_list by (try assumption; lia). rewrite El, cpus_len, Z.mod_small, Nat2Z.id by lia. cbv zeta. rewrite to_nat_list.
  destruct (raw_ok n llc) as (raw & -> & R0). rewrite (mapM_ok raw llc) by (intros x X; apply in_seq in X; apply R0; lia).
  fold maps. rewrite (pairings_ok n llc raw maps R0 in_maps). reflexivity.
Qed.
Lemma in_p c k : In (c, k) p <-> c < n /\ k = id c.
Proof. unfold p. rewrite in_map_iff. split; [intros (x & [= <- <-] & X); apply in_seq in X; split; [lia|reflexivity]|]. intros [L ->]. exists c. split; [reflexivity|apply in_seq; lia]. Qed.
Definition wd (ws : list Z) (k : nat) : nat := Z.to_nat (nth k ws 0%Z).
Lemma filter_map_len {A B} (f : B -> bool) (g : A -> B) l : length (filter f (map g l)) = length (filter (fun x => f (g x)) l).
Proof. induction l as [|x l IH]; [reflexivity|]. cbn [map filter]. destruct (f (g x)); cbn [length]; rewrite IH; reflexivity. Qed.
Lemma cnteq_perm k q : Permutation p q -> cnteq k q = cnteq k p.
Proof.
  intros P. unfold cnteq. induction P as [|x a b P IH|x y a|a b d P1 IH1 P2 IH2]; [reflexivity| | |congruence].
  - cbn [filter]. destruct (snd x =? k); cbn [length]; congruence.
  - cbn [filter]. destruct (snd x =? k), (snd y =? k); reflexivity.
Qed.
Lemma cnteq_p c : c < n -> cnteq (id c) p = length (sharing n llc c).
Proof.
  intros L. unfold cnteq, p, sharing. rewrite filter_map_len. cbn [snd]. apply filter_len_ext. intros d D. apply in_seq in D.
  assert (H := id_eq maps llc d c (in_maps d ltac:(lia)) (in_maps c L)). fold id in H. destruct (Nat.eqb_spec (id d) (id c)) as [Q|Q].
  - symmetry. apply teqb_eq, H, Q.
  - destruct (teqb (llc d) (llc c)) eqn:T; [|reflexivity]. apply teqb_eq, H in T. contradiction.
Qed.
Lemma widths_ok : exists ws, mapM read_width maps = Some ws /\ forall c, c < n -> wd ws (id c) = length (sharing n llc c).
Proof.
  set (g := fun t => match read_width t with Some v => v | None => 0%Z end).
  assert (M : mapM read_width maps = Some (map g maps)).
  { apply mapM_ok. intros x X. unfold maps in X. apply distinct_ok, in_map_iff in X as (c & <- & C). apply in_seq in C. unfold g. rewrite (llc_width n llc c Top Small) by lia. reflexivity. }
  exists (map g maps). split; [exact M|]. intros c L. unfold wd. destruct (id_nth maps llc c (in_maps c L)) as [N _]. fold id in N.
  rewrite (nth_error_nth (map g maps) (id c) 0%Z (x := g (llc c))) by (apply map_nth_error, N). unfold g. rewrite (llc_width n llc c Top Small L). lia.
Qed.
Theorem finish_ok q : Permutation p q -> sorted q ->
  exists en, finish n (seq 0 n) maps q = Some en /\
    forall i c k, nth_error q i = Some (c, k) -> c < n /\ k = id c /\ en c = Some (E i (cntlt k q) (length (sharing n llc c)) k).
Proof.
  intros P S0. assert (Lq : length q = n) by (rewrite <- (Permutation_length P); unfold p; rewrite map_length, seq_length; reflexivity).
  assert (In_q : forall c k, In (c, k) q <-> c < n /\ k = id c) by (intros; rewrite <- in_p; split; apply Permutation_in; [symmetry|]; exact P).
  unfold finish. assert (Q1 := mapM_nth q). rewrite Lq in Q1. rewrite Q1. destruct widths_ok as (ws & -> & V).
  destruct (entries_ok n (wd ws) q S0) as (en & En & H).
  - intros c k I0. apply In_q in I0 as [L ->]. rewrite V, cnteq_perm, cnteq_p by assumption. reflexivity.
  - intros c k I0. apply In_q in I0. apply I0.
  - apply (Permutation_NoDup (Permutation_map fst P)). unfold p. rewrite map_map, map_id. apply seq_NoDup.
  - exists en. split; [exact En|]. intros i c k N. assert (I0 := nth_error_In _ _ N). apply In_q in I0 as [L ->]. split; [exact L|]. split; [reflexivity|].
    rewrite (H _ _ _ N), V by exact L. reflexivity.
Qed.
End Map.
