From Coq Require Import Ascii String List Bool Arith ZArith Lia.
From Verif Require Import Args.Model Args.Spec.
Import ListNotations.

(** * The help column *)
Lemma next_nl_some l n : next_nl l = Some n -> exists a r, l = a ++ nlc :: r /\ length a = n /\ next_nl a = None.
Proof.
  revert n. induction l as [|c l IH]; intros n; cbn [next_nl]; [discriminate|]. destruct (Ascii.eqb_spec c nlc) as [->|Hc].
  - intros [= <-]. exists [], l. auto.
  - destruct (next_nl l) as [k|]; [|discriminate]. cbn [option_map]. intros [= <-]. destruct (IH _ eq_refl) as [a [r [-> [<- Ha]]]].
    exists (c :: a), r. cbn [app length next_nl]. destruct (Ascii.eqb_spec c nlc); [congruence|]. rewrite Ha. auto.
Qed.
Lemma next_nl_app a r : next_nl a = None -> next_nl (a ++ nlc :: r) = Some (length a).
Proof.
  induction a as [|c a IH]; cbn [next_nl app length]; [reflexivity|]. destruct (Ascii.eqb_spec c nlc); [discriminate|].
  destruct (next_nl a); [discriminate|]. intros _. rewrite IH by reflexivity. reflexivity.
Qed.
Lemma next_nl_skipn k a : next_nl a = None -> next_nl (skipn k a) = None.
Proof.
  revert a. induction k as [|k IH]; intros [|c a]; cbn [skipn]; auto. cbn [next_nl]. destruct (Ascii.eqb c nlc); [discriminate|]. destruct (next_nl a) eqn:E; [discriminate|]. intros _. apply IH, E.
Qed.
Lemma lines_app a r : next_nl a = None -> lines (a ++ nlc :: r) = a :: lines r.
Proof.
  induction a as [|c a IH]; cbn [next_nl app lines]; [reflexivity|]. destruct (Ascii.eqb_spec c nlc); [discriminate|].
  destruct (next_nl a); [discriminate|]. intros _. rewrite IH by reflexivity. reflexivity.
Qed.
Lemma lines_none a : a <> [] -> next_nl a = None -> lines a = [a].
Proof.
  induction a as [|c a IH]; [congruence|]. intros _. cbn [next_nl lines]. destruct (Ascii.eqb c nlc); [discriminate|].
  destruct (next_nl a) eqn:E; [discriminate|]. intros _. destruct a as [|d a]; [reflexivity|]. rewrite IH by congruence. reflexivity.
Qed.
Definition good (hw : nat) (help : text) (ps : list text) : Prop := exists pss, Forall2 (wrapped hw) (lines help) pss /\ ps = concat pss.
Lemma good_more hw (a rest : text) ls ps : length a > hw -> lines rest = a :: ls ->
  (exists pss, Forall2 (wrapped hw) (skipn hw a :: ls) pss /\ ps = concat pss) -> good hw rest (firstn hw a :: ps).
Proof.
  intros Ha El [pss [H ->]]. unfold good. rewrite El. inversion H as [|x p l q Hp Hq]; subst. exists ((firstn hw a :: p) :: q). split; [|reflexivity].
  constructor; [|exact Hq]. rewrite <- (firstn_skipn hw a) at 1. constructor; [rewrite firstn_length; lia| |exact Hp].
  intros E. apply (f_equal (@length ascii)) in E. rewrite skipn_length in E. cbn [length] in E. lia.
Qed.
Lemma pieces_good hw : hw >= 1 -> forall f help, help <> [] -> length help <= f -> exists ps, pieces f hw help = Some ps /\ good hw help ps.
Proof.
  intros Hw. induction f as [|f IH]; intros help Hn Hl; [destruct help; [congruence|cbn [length] in Hl; lia]|]. cbn [pieces].
  destruct (next_nl help) as [n|] eqn:En.
  - destruct (next_nl_some _ _ En) as [a [r [-> [<- Ha]]]]. assert (L := lines_app a r Ha). rewrite app_length in Hl |- *. cbn [length] in Hl |- *.
    destruct (Nat.le_gt_cases (length a) hw) as [C|C].
    + replace (Nat.min (Nat.min (length a + S (length r)) hw) (length a)) with (length a) by lia. rewrite Nat.eqb_refl.
      rewrite firstn_app, Nat.sub_diag, firstn_all, firstn_O, app_nil_r, skipn_app, Nat.sub_diag, skipn_all. cbn [app skipn].
      destruct r as [|x r'] eqn:Er.
      * exists [a]. split; [reflexivity|]. exists [[a]]. rewrite L. split; [constructor; [constructor; exact C|constructor]|reflexivity].
      * rewrite <- Er in *. destruct (IH r) as [ps [-> [pss [H1 ->]]]]; [congruence|lia|]. exists (a :: concat pss). split; [reflexivity|].
        exists ([a] :: pss). rewrite L. split; [constructor; [constructor; exact C|exact H1]|reflexivity].
    + replace (Nat.min (Nat.min (length a + S (length r)) hw) (length a)) with hw by lia. destruct (Nat.eqb_spec (length a) hw); [lia|].
      rewrite firstn_app, skipn_app. replace (hw - length a) with 0 by lia. cbn [firstn skipn]. rewrite app_nil_r.
      assert (N := next_nl_skipn hw a Ha). assert (L2 := lines_app _ r N).
      destruct (IH (skipn hw a ++ nlc :: r)) as [ps [E H]]; [destruct (skipn hw a); discriminate|rewrite app_length, skipn_length; cbn [length]; lia|].
      assert (NE : exists x y, skipn hw a ++ nlc :: r = x :: y) by (destruct (skipn hw a); cbn [app]; eauto). destruct NE as [x [y NE]]. rewrite NE in *. rewrite E.
      exists (firstn hw a :: ps). split; [reflexivity|]. apply good_more with (ls := lines r); [lia|exact L|]. unfold good in H. rewrite L2 in H. exact H.
  - assert (L := lines_none _ Hn En). destruct (Nat.le_gt_cases (length help) hw) as [C|C].
    + rewrite Nat.min_l by lia. rewrite firstn_all, skipn_all. exists [help]. split; [reflexivity|]. exists [[help]]. rewrite L. split; [constructor; [constructor; exact C|constructor]|reflexivity].
    + rewrite Nat.min_r by lia. assert (N := next_nl_skipn hw help En). assert (NE : skipn hw help <> []).
      { intros E. apply (f_equal (@length ascii)) in E. rewrite skipn_length in E. cbn [length] in E. lia. }
      destruct (IH (skipn hw help)) as [ps [E H]]; [exact NE|rewrite skipn_length; lia|]. assert (L2 := lines_none _ NE N).
      exists (firstn hw help :: ps). split; [destruct (skipn hw help); [congruence|rewrite E; reflexivity]|].
      apply good_more with (ls := []); [lia|exact L|]. unfold good in H. rewrite L2 in H. exact H.
Qed.
(** the pieces of a line are determined *)
Lemma pieces_zero f help : help <> [] -> hd nlc help <> nlc -> pieces f 0 help = None.
Proof.
  intros Hn Hh. induction f as [|f IH]; [reflexivity|]. cbn [pieces]. destruct help as [|c r]; [congruence|]. cbn [hd] in Hh. cbn [next_nl length].
  destruct (Ascii.eqb_spec c nlc); [congruence|]. destruct (next_nl r) as [k|]; cbn [option_map Nat.min Nat.eqb skipn]; rewrite IH; reflexivity.
Qed.

(** * Values of the options *)
Lemma clash_no o l p : clash o l = false -> In p l -> fst o <> 0%Z -> fst p <> fst o.
Proof.
  induction l as [|q l IH]; cbn [clash In]; [tauto|]. intros H [->|Hp] Ho.
  - apply orb_false_iff in H as [H _]. apply orb_false_iff in H as [H _]. apply andb_false_iff in H as [H|H]; [apply negb_false_iff, Z.eqb_eq in H; congruence|]. apply Z.eqb_neq in H. congruence.
  - apply orb_false_iff in H as [_ H]. auto.
Qed.
Lemma vals_in l : forall m v, In v (vals l m) -> (m < v)%Z \/ (exists o, In o l /\ fst o <> 0%Z /\ v = fst o).
Proof.
  induction l as [|o l IH]; intros m v; cbn [vals In]; [tauto|]. destruct (Z.eqb_spec (fst o) 0) as [E|E]; cbn [In]; intros [<-|H].
  - left. lia.
  - destruct (IH _ _ H) as [K|[p [Hp K]]]; [left; lia|right; exists p; auto].
  - right. exists o. auto.
  - destruct (IH _ _ H) as [K|[p [Hp K]]]; [auto|right; exists p; auto].
Qed.
Lemma vals_nodup l : check l = true -> forall m, (forall o, In o l -> fst o <= m)%Z -> NoDup (vals l m).
Proof.
  induction l as [|o l IH]; cbn [check vals]; intros H m Hm; [constructor|]. apply andb_prop in H as [Hc H]. apply negb_true_iff in Hc.
  destruct (Z.eqb_spec (fst o) 0) as [E|E]; constructor.
  - intros K. apply vals_in in K as [K|[p [Hp [_ K]]]]; [lia|]. specialize (Hm p (or_intror Hp)). lia.
  - apply IH; [exact H|]. intros p Hp. specialize (Hm p (or_intror Hp)). lia.
  - intros K. apply vals_in in K as [K|[p [Hp [_ K]]]]; [specialize (Hm o (or_introl eq_refl)); lia|]. apply (clash_no _ _ _ Hc Hp E). congruence.
  - apply IH; [exact H|]. intros p Hp. apply Hm. right. exact Hp.
Qed.
Lemma max_bound l : forall m, (m <= fold_left (fun m (o : option_) => if (fst o =? 0)%Z then m else Z.max (fst o) m) l m)%Z /\
  (forall o, In o l -> fst o <> 0%Z -> (fst o <= fold_left (fun m (o : option_) => if (fst o =? 0)%Z then m else Z.max (fst o) m) l m)%Z).
Proof.
  induction l as [|p l IH]; intros m; cbn [fold_left In]; [split; [lia|tauto]|]. destruct (Z.eqb_spec (fst p) 0) as [E|E].
  - destruct (IH m) as [I1 I2]. split; [exact I1|]. intros o [->|Ho]; [congruence|auto].
  - destruct (IH (Z.max (fst p) m)) as [I1 I2]. split; [lia|]. intros o [->|Ho] Hz; [lia|auto].
Qed.
Lemma start_bound l : (hc <= start_max l)%Z /\ forall o, In o l -> (fst o <= start_max l)%Z.
Proof.
  unfold start_max. destruct (max_bound l hc) as [H1 H2]. split; [exact H1|]. intros o Ho. destruct (Z.eq_dec (fst o) 0) as [E|E]; [rewrite E; unfold hc in *; lia|auto].
Qed.
Lemma index_nodup l : NoDup l -> forall i v, nth_error l i = Some v -> index v l = Some i.
Proof.
  induction 1 as [|x l Hx _ IH]; intros [|i] v; cbn [nth_error index]; try discriminate.
  - intros [= ->]. rewrite Z.eqb_refl. reflexivity.
  - intros H. destruct (Z.eqb_spec v x) as [->|]; [apply nth_error_In in H; tauto|]. rewrite (IH _ _ H). reflexivity.
Qed.
Lemma vals_nth l : forall m i o, nth_error l i = Some o -> exists v, nth_error (vals l m) i = Some v /\ (if (fst o =? 0)%Z then (m < v)%Z else v = fst o).
Proof.
  induction l as [|p l IH]; intros m [|i] o; cbn [nth_error vals]; try discriminate.
  - intros [= ->]. destruct (fst o =? 0)%Z eqn:E; cbn [nth_error]; eexists; (split; [reflexivity|]); [lia|reflexivity].
  - intros H. destruct (fst p =? 0)%Z; cbn [nth_error]; [|apply IH, H]. destruct (IH (m + 1)%Z _ _ H) as [v [H1 H2]]. exists v. split; [exact H1|]. destruct (fst o =? 0)%Z; [lia|exact H2].
Qed.
