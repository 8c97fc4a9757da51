From Coq Require Import ZArith List Bool Arith Lia Permutation.
From Verif Require Import Cost.Model Cost.Props Prune.Model Prune.Spec.
Import ListNotations.
Local Open Scope nat_scope.

Lemma lt_irr a : ltb a a = false. Proof. apply C47_strict_total_order. Qed.
Lemma lt_trans a b c : ltb a b = true -> ltb b c = true -> ltb a c = true. Proof. apply C47_strict_total_order. Qed.
Lemma lt_tot a b : ltb a b = true \/ a = b \/ ltb b a = true. Proof. apply C47_strict_total_order. Qed.
Definition same (c d : cand) : Prop := cost c = cost d /\ cvt c = cvt d.
Lemma beats_spec c d : beats c d = true <-> ltb (cost c) (cost d) = true \/ (cost c = cost d /\ ltb (cvt c) (cvt d) = true).
Proof. unfold beats. rewrite orb_true_iff, andb_true_iff, Z.eqb_eq. tauto. Qed.
Lemma beats_irr c : beats c c = false.
Proof. unfold beats. rewrite !lt_irr, andb_false_r. reflexivity. Qed.
Lemma beats_trans a b c : beats a b = true -> beats b c = true -> beats a c = true.
Proof.
  rewrite !beats_spec. intros [H|[E H]] [H'|[E' H']].
  - left. eapply lt_trans; eassumption.
  - left. rewrite <- E'. exact H.
  - left. rewrite E. exact H'.
  - right. split; [congruence|eapply lt_trans; eassumption].
Qed.
Lemma beats_tot a b : beats a b = true \/ same a b \/ beats b a = true.
Proof.
  rewrite !beats_spec. unfold same. destruct (lt_tot (cost a) (cost b)) as [H|[H|H]]; [auto| |auto]. destruct (lt_tot (cvt a) (cvt b)) as [H'|[H'|H']]; auto.
Qed.
Lemma same_beats a b c : same a b -> beats a c = beats b c /\ beats c a = beats c b.
Proof. intros [E F]. unfold beats. rewrite E, F. auto. Qed.
Lemma beats_asym a b : beats a b = true -> beats b a = false.
Proof. intros H. destruct (beats b a) eqn:E; [|reflexivity]. assert (X := beats_trans _ _ _ H E). rewrite beats_irr in X. discriminate. Qed.

Lemma in_best l c : In c (best l) <-> In c l /\ forall d, In d l -> beats d c = false.
Proof.
  unfold best. rewrite filter_In, forallb_forall. split; intros [A B]; split; try exact A; intros d D; specialize (B d D); destruct (beats d c); cbn in *; congruence.
Qed.
Lemma filter_none {A} (f : A -> bool) l : (forall x, In x l -> f x = false) -> filter f l = [].
Proof. induction l as [|x l IH]; intros H; [reflexivity|]. cbn [filter]. rewrite (H x (or_introl eq_refl)). apply IH. intros y Y. apply H. right. exact Y. Qed.
Lemma best_snoc l c : best (l ++ [c]) =
  filter (fun x => forallb (fun d => negb (beats d x)) l && negb (beats c x)) l ++ (if forallb (fun d => negb (beats d c)) l then [c] else []).
Proof.
  unfold best. rewrite filter_app. f_equal.
  - apply filter_ext. intros x. rewrite forallb_app. cbn [forallb]. rewrite andb_true_r. reflexivity.
  - cbn [filter]. rewrite forallb_app. cbn [forallb]. rewrite beats_irr. cbn [negb andb]. rewrite andb_true_r. reflexivity.
Qed.
Lemma filter_and {A} (f g : A -> bool) l : filter (fun x => f x && g x) l = filter g (filter f l).
Proof. induction l as [|x l IH]; [reflexivity|]. cbn [filter]. destruct (f x); cbn [andb filter]; [destruct (g x); rewrite IH; reflexivity|exact IH]. Qed.
Lemma best_same l x y : In x (best l) -> In y (best l) -> same x y.
Proof.
  intros X Y. apply in_best in X as [X1 X2]. apply in_best in Y as [Y1 Y2]. destruct (beats_tot x y) as [H|[H|H]]; [rewrite (Y2 x X1) in H; discriminate|exact H|rewrite (X2 y Y1) in H; discriminate].
Qed.
Lemma best_step l w c : In w (best l) ->
  (beats c w = true -> best (l ++ [c]) = [c]) /\ (same c w -> best (l ++ [c]) = best l ++ [c]) /\ (beats w c = true -> best (l ++ [c]) = best l).
Proof.
  intros W. assert (W' := W). apply in_best in W' as [W1 W2]. rewrite best_snoc, filter_and. fold (best l). split; [|split].
  - intros H. rewrite filter_none.
    + cbn [app]. assert (F : forallb (fun d => negb (beats d c)) l = true).
      { apply forallb_forall. intros d D. destruct (beats d c) eqn:Q; [|reflexivity]. assert (X := beats_trans _ _ _ Q H). rewrite (W2 d D) in X. discriminate. }
      rewrite F. reflexivity.
    + intros x X. destruct (same_beats w x c (best_same l w x W X)) as [_ E]. rewrite <- E, H. reflexivity.
  - intros H. f_equal.
    + assert (F : forall x, In x (best l) -> negb (beats c x) = true).
      { intros x X. destruct (same_beats w x c (best_same l w x W X)) as [_ E]. rewrite <- E. destruct (same_beats c w w H) as [E' _]. rewrite E', beats_irr. reflexivity. }
      clear -F. induction (best l) as [|x m IH]; [reflexivity|]. cbn [filter]. rewrite (F x (or_introl eq_refl)). f_equal. apply IH. intros y Y. apply F. right. exact Y.
    + assert (F : forallb (fun d => negb (beats d c)) l = true).
      { apply forallb_forall. intros d D. destruct (same_beats c w d H) as [_ E]. rewrite E, (W2 d D). reflexivity. }
      rewrite F. reflexivity.
  - intros H. assert (F : forallb (fun d => negb (beats d c)) l = false).
    { destruct (forallb (fun d => negb (beats d c)) l) eqn:Q; [|reflexivity]. rewrite forallb_forall in Q. specialize (Q w W1). rewrite H in Q. discriminate. }
    rewrite F, app_nil_r. assert (G : forall x, In x (best l) -> negb (beats c x) = true).
    { intros x X. destruct (same_beats w x c (best_same l w x W X)) as [_ E]. rewrite <- E, (beats_asym w c H). reflexivity. }
    clear -G. induction (best l) as [|x m IH]; [reflexivity|]. cbn [filter]. rewrite (G x (or_introl eq_refl)). f_equal. apply IH. intros y Y. apply G. right. exact Y.
Qed.
Lemma best_one c : best [c] = [c].
Proof. unfold best. cbn. rewrite beats_irr. reflexivity. Qed.
Lemma best_nonempty l : l <> [] -> best l <> [].
Proof.
  induction l as [|c l IH] using rev_ind; intros H; [congruence|]. destruct l as [|x l]; [cbn [app]; rewrite best_one; discriminate|].
  destruct (best (x :: l)) as [|w m] eqn:B; [exfalso; apply IH; [discriminate|reflexivity]|]. assert (W : In w (best (x :: l))) by (rewrite B; left; reflexivity).
  destruct (best_step (x :: l) w c W) as (A1 & A2 & A3). destruct (beats_tot c w) as [Q|[Q|Q]]; [rewrite A1 by exact Q|rewrite A2 by exact Q; rewrite B|rewrite A3 by exact Q; rewrite B]; discriminate.
Qed.

(** the entry of a type after the candidates l *)
Definition entry (l : list cand) : option (cand * bool) :=
  match best l with
  | [] => None
  | w :: _ => match live (best l) with [] => Some (w, false) | [c] => Some (c, false) | c :: _ => Some (c, true) end
  end.
Lemma entry_in l c a : entry l = Some (c, a) -> In c (best l).
Proof.
  unfold entry. destruct (best l) as [|w m] eqn:B; [discriminate|]. destruct (live (w :: m)) as [|x [|y r]] eqn:L; intros [= <- <-]; [left; reflexivity| |];
    assert (X : In x (live (w :: m))) by (rewrite L; left; reflexivity); apply filter_In in X; apply X.
Qed.
Lemma entry_del l c a : entry l = Some (c, a) -> deleted c = true -> live (best l) = [] /\ a = false.
Proof.
  unfold entry. destruct (best l) as [|w m] eqn:B; [discriminate|]. destruct (live (w :: m)) as [|x [|y r]] eqn:L; intros [= <- <-] D; [auto| |];
    assert (X : In x (live (w :: m))) by (rewrite L; left; reflexivity); apply filter_In in X as [_ X]; rewrite D in X; discriminate.
Qed.
Lemma entry_none l : entry l = None <-> l = [].
Proof.
  split; [|intros ->; reflexivity]. unfold entry. intros H. destruct l as [|c l]; [reflexivity|]. exfalso. apply (best_nonempty (c :: l)); [discriminate|].
  destruct (best (c :: l)) as [|w m]; [reflexivity|]. destruct (live (w :: m)) as [|x [|y r]]; discriminate.
Qed.
Lemma live_app a b : live (a ++ b) = live a ++ live b. Proof. apply filter_app. Qed.
Lemma entry_new l c a n : entry l = Some (c, a) -> entry (l ++ [n]) =
  if ltb (cost n) (cost c) || (eqb (cost n) (cost c) && ltb (cvt n) (cvt c)) then Some (n, false)
  else if eqb (cost n) (cost c) && eqb (cvt n) (cvt c) then
    if deleted n then Some (c, a) else if deleted c then Some (n, false) else Some (c, true)
  else Some (c, a).
Proof.
  intros E0. assert (W := entry_in l c a E0). destruct (best_step l c n W) as (A1 & A2 & A3). change (ltb (cost n) (cost c) || (eqb (cost n) (cost c) && ltb (cvt n) (cvt c))) with (beats n c).
  destruct (beats_tot n c) as [Q|[Q|Q]].
  - rewrite Q. unfold entry. rewrite (A1 Q). cbn. destruct (deleted n); reflexivity.
  - assert (S0 := same_beats n c c Q). destruct S0 as [-> _]. rewrite beats_irr. destruct Q as [Q1 Q2]. unfold eqb. rewrite Q1, Q2, !Z.eqb_refl. cbn [andb].
    assert (A : best (l ++ [n]) = best l ++ [n]) by (apply A2; split; assumption). unfold entry. rewrite A, live_app. cbn [live filter].
    destruct (deleted n) eqn:Dn; cbn [negb].
    + rewrite app_nil_r. unfold entry in E0. destruct (best l) as [|w m]; [destruct W|]. exact E0.
    + destruct (deleted c) eqn:Dc.
      * destruct (entry_del l c a E0 Dc) as [-> _]. destruct (best l) as [|w m]; [destruct W|]. reflexivity.
      * unfold entry in E0. destruct (best l) as [|w m] eqn:B; [destruct W|]. cbn [app]. destruct (live (w :: m)) as [|x [|y r]] eqn:L; cbn [app]; injection E0 as <- <-; [|reflexivity|reflexivity].
        exfalso. assert (X : In w (live (w :: m))) by (apply filter_In; split; [left; reflexivity|rewrite Dc; reflexivity]). rewrite L in X. destruct X.
  - rewrite (beats_asym c n Q). assert (N : eqb (cost n) (cost c) && eqb (cvt n) (cvt c) = false).
    { destruct (eqb (cost n) (cost c) && eqb (cvt n) (cvt c)) eqn:X; [|reflexivity]. apply andb_true_iff in X as [X1 X2]. apply Z.eqb_eq in X1. apply Z.eqb_eq in X2.
      unfold beats in Q. rewrite X1, X2, !lt_irr, andb_false_r in Q. discriminate. }
    rewrite N. unfold entry in *. rewrite (A3 Q). exact E0.
Qed.

(** the map represents the candidates seen *)
Definition rep (s : sel) (l : list cand) : Prop := forall k, s k = entry (of_type k l).
Lemma of_app k a b : of_type k (a ++ b) = of_type k a ++ of_type k b. Proof. apply filter_app. Qed.
Lemma rep_sat s l n : rep s l -> rep (add_sat s n) (l ++ [n]).
Proof.
  intros H j. rewrite of_app. assert (O1 : of_type j [n] = if key n =? j then [n] else []) by reflexivity. rewrite O1. clear O1. unfold add_sat. assert (Hk := H (key n)).
  destruct (s (key n)) as [[c a]|] eqn:Sk.
  - symmetry in Hk. assert (N := entry_new _ c a n Hk). destruct (Nat.eqb_spec (key n) j) as [Ej|D]; [subst j|].
    + rewrite N. destruct (_ || _); [unfold put; rewrite Nat.eqb_refl; reflexivity|]. destruct (_ && _); [|rewrite Sk; reflexivity].
      destruct (deleted n); [rewrite Sk; reflexivity|]. destruct (deleted c); unfold put; rewrite Nat.eqb_refl; reflexivity.
    + rewrite app_nil_r, <- H. destruct (_ || _); [unfold put; destruct (Nat.eqb_spec j (key n)); [congruence|reflexivity]|]. destruct (_ && _); [|reflexivity].
      destruct (deleted n); [reflexivity|]. destruct (deleted c); unfold put; (destruct (Nat.eqb_spec j (key n)); [congruence|reflexivity]).
  - symmetry in Hk. apply entry_none in Hk. unfold put. rewrite (Nat.eqb_sym j (key n)). destruct (Nat.eqb_spec (key n) j) as [Ej|D]; [subst j|].
    + rewrite Hk. cbn [app]. unfold entry. rewrite best_one. cbn. destruct (deleted n); reflexivity.
    + rewrite app_nil_r. apply H.
Qed.
Lemma rep_sats m : forall s l, rep s l -> rep (fold_left add_sat m s) (l ++ m).
Proof.
  induction m as [|n m IH]; intros s l H; [rewrite app_nil_r; exact H|]. cbn [fold_left]. change (n :: m) with ([n] ++ m). rewrite app_assoc. apply IH, rep_sat, H.
Qed.
Lemma loses l c a n : entry l = Some (c, a) -> beats c n = true -> entry (l ++ [n]) = Some (c, a).
Proof.
  intros E0 Q. rewrite (entry_new l c a n E0). change (ltb (cost n) (cost c) || (eqb (cost n) (cost c) && ltb (cvt n) (cvt c))) with (beats n c). rewrite (beats_asym c n Q).
  destruct (eqb (cost n) (cost c) && eqb (cvt n) (cvt c)) eqn:X; [|reflexivity]. apply andb_true_iff in X as [X1 X2]. apply Z.eqb_eq in X1. apply Z.eqb_eq in X2.
  unfold beats in Q. rewrite X1, X2, !lt_irr, andb_false_r in Q. discriminate.
Qed.
Lemma all_lose l c a m : entry l = Some (c, a) -> (forall n, In n m -> beats c n = true) -> entry (l ++ m) = Some (c, a).
Proof.
  revert l. induction m as [|n m IH]; intros l E0 H; [rewrite app_nil_r; exact E0|]. change (n :: m) with ([n] ++ m). rewrite app_assoc. apply IH.
  - apply loses; [exact E0|]. apply H. left. reflexivity.
  - intros x X. apply H. right. exact X.
Qed.
Lemma rep_skip s l p c a : rep s l -> s (key (pcand p)) = Some (c, a) -> ltb (cost c) (cost (pcand p)) = true ->
  (forall n, In n (sats p) -> ltb (cost n) (cost (pcand p)) = false) -> (forall n, In n (sats p) -> key n = key (pcand p)) -> rep s (l ++ sats p).
Proof.
  intros H Sk L M K j. rewrite of_app. destruct (Nat.eq_dec (key (pcand p)) j) as [<-|D].
  - rewrite Sk. symmetry. apply all_lose; [rewrite <- H; exact Sk|]. intros n N. apply filter_In in N as [N _]. apply beats_spec. left. specialize (M n N).
    destruct (lt_tot (cost c) (cost n)) as [Q|[Q|Q]]; [exact Q|congruence|]. assert (X := lt_trans _ _ _ Q L). congruence.
  - assert (Z0 : of_type j (sats p) = []) by (apply filter_none; intros x X; rewrite (K x X); destruct (Nat.eqb_spec (key (pcand p)) j); [contradiction|reflexivity]).
    rewrite Z0, app_nil_r. apply H.
Qed.
Lemma entry_mem l x : entry l = Some x -> exists c, In c l.
Proof. destruct x as [c a]. intros E0. exists c. apply entry_in, in_best in E0. apply E0. Qed.
Lemma rep_select l : sane l -> rep (select l) (all l).
Proof.
  intros [S1 S2]. assert (H : forall a b, l = a ++ b -> rep (fold_left add_pre a (fun _ => None)) (all a)).
  { induction a as [|p a IH] using rev_ind; intros b E0; [intros k; reflexivity|]. rewrite <- app_assoc in E0. specialize (IH _ E0). rewrite fold_left_app. cbn [fold_left app] in *.
    assert (Ap : all (a ++ [p]) = all a ++ sats p) by (unfold all; rewrite flat_map_app; cbn; rewrite app_nil_r; reflexivity). rewrite Ap. remember (fold_left add_pre a (fun _ => None)) as s0. unfold add_pre.
    destruct (s0 (key (pcand p))) as [[c x]|] eqn:Sk; [|apply rep_sats, IH].
    destruct (ltb (cost c) (cost (pcand p))) eqn:L; [|apply rep_sats, IH].
    apply (rep_skip _ _ p c x IH Sk L).
    - intros n N. apply S1 with (p := p); [rewrite E0; apply in_or_app; right; left; reflexivity|exact N].
    - destruct (S2 a p b E0) as [K|K]; [exact K|]. exfalso. assert (Q := Sk). rewrite (IH (key (pcand p))) in Q. apply entry_in, in_best in Q as [Q _]. apply filter_In in Q as [Q1 Q2]. apply Nat.eqb_eq in Q2.
      apply (K c); [unfold all; rewrite flat_map_app; apply in_or_app; left; exact Q1|exact Q2]. }
  apply (H l []). rewrite app_nil_r. reflexivity.
Qed.
Lemma report_entry s l k : rep s l -> report s k = choice (of_type k l).
Proof.
  intros H. unfold report. rewrite H. unfold entry, choice. destruct (best (of_type k l)) as [|w m]; [reflexivity|]. destruct (live (w :: m)) as [|x [|y r]]; reflexivity.
Qed.

(** the least costs *)
Definition least (l : list cand) : list cand := filter (fun c => forallb (fun d => negb (ltb (cost d) (cost c))) l) l.
Lemma lt_inf a : ltb a infinity = true \/ a = infinity.
Proof. destruct (Z.eq_dec a infinity); [auto|]. left. apply C47_infinity_greatest. assumption. Qed.
Lemma inf_lt a : ltb infinity a = false. Proof. apply C47_infinity_greatest. Qed.
Lemma not_lt a b : ltb a b = false -> ltb b a = true \/ a = b.
Proof. intros H. destruct (lt_tot a b) as [Q|[Q|Q]]; [congruence|auto|auto]. Qed.
Lemma min_inv l : let (m, out) := fold_left min_step l (infinity, []) in
  (forall c, In c l -> ltb (cost c) m = false) /\ out = filter (fun c => eqb (cost c) m) l /\ ((l = [] /\ m = infinity) \/ exists c, In c l /\ cost c = m).
Proof.
  induction l as [|c l IH] using rev_ind; [cbn; split; [intros c []|auto]|]. rewrite fold_left_app. cbn [fold_left]. destruct (fold_left min_step l (infinity, [])) as [m out]. destruct IH as (I1 & I2 & I3).
  unfold min_step. destruct (ltb (cost c) m) eqn:L; [|destruct (eqb (cost c) m) eqn:Q].
  - split; [|split].
    + intros x X. apply in_app_or in X as [X|[<-|[]]]; [|apply lt_irr]. destruct (ltb (cost x) (cost c)) eqn:Q; [|reflexivity]. assert (Y := lt_trans _ _ _ Q L). rewrite (I1 x X) in Y. discriminate.
    + rewrite filter_app. cbn [filter]. unfold eqb at 2. rewrite Z.eqb_refl. rewrite filter_none; [reflexivity|]. intros x X. unfold eqb. destruct (Z.eqb_spec (cost x) (cost c)) as [Y|Y]; [|reflexivity].
      specialize (I1 x X). congruence.
    + right. exists c. split; [apply in_or_app; right; left; reflexivity|reflexivity].
  - split; [|split].
    + intros x X. apply in_app_or in X as [X|[<-|[]]]; [apply I1, X|exact L].
    + rewrite filter_app. cbn [filter]. rewrite Q, I2. reflexivity.
    + right. exists c. apply Z.eqb_eq in Q. split; [apply in_or_app; right; left; reflexivity|exact Q].
  - split; [|split].
    + intros x X. apply in_app_or in X as [X|[<-|[]]]; [apply I1, X|exact L].
    + rewrite filter_app. cbn [filter]. rewrite Q, app_nil_r. exact I2.
    + destruct I3 as [[-> ->]|(x & X & E0)].
      * exfalso. destruct (lt_inf (cost c)) as [Y|Y]; [congruence|]. unfold eqb in Q. rewrite Y, Z.eqb_refl in Q. discriminate.
      * right. exists x. split; [apply in_or_app; left; exact X|exact E0].
Qed.
Lemma min_least l : findMinCost l = least l.
Proof.
  unfold findMinCost. assert (H := min_inv l). destruct (fold_left min_step l (infinity, [])) as [m out]. destruct H as (I1 & -> & I3). cbn [snd]. unfold least.
  destruct I3 as [[-> _]|(w & W & <-)]; [reflexivity|]. apply filter_ext_in. intros c C0. unfold eqb. destruct (Z.eqb_spec (cost c) (cost w)) as [Q|Q].
  - symmetry. apply forallb_forall. intros d D. rewrite Q, (I1 d D). reflexivity.
  - symmetry. destruct (forallb (fun d => negb (ltb (cost d) (cost c))) l) eqn:F; [|reflexivity]. rewrite forallb_forall in F. specialize (F w W).
    destruct (not_lt _ _ (I1 c C0)) as [X|X]; [rewrite X in F; discriminate|congruence].
Qed.

(** the order of the candidates *)
Lemma perm_filter {A} (f : A -> bool) l m : Permutation l m -> Permutation (filter f l) (filter f m).
Proof.
  induction 1 as [|x a b P IH|x y a|a b c P1 IH1 P2 IH2]; [constructor| | |eapply perm_trans; eassumption].
  - cbn [filter]. destruct (f x); [constructor|]; exact IH.
  - cbn [filter]. destruct (f x), (f y); try apply Permutation_refl. constructor.
Qed.
Lemma perm_forallb {A} (f : A -> bool) l m : Permutation l m -> forallb f l = forallb f m.
Proof.
  induction 1 as [|x a b P IH|x y a|a b c P1 IH1 P2 IH2]; [reflexivity| | |congruence]; cbn [forallb]; [rewrite IH; reflexivity|]. destruct (f x), (f y); reflexivity.
Qed.
Lemma perm_best l m : Permutation l m -> Permutation (best l) (best m).
Proof.
  intros P. unfold best. rewrite (filter_ext (fun c => forallb (fun d => negb (beats d c)) l) (fun c => forallb (fun d => negb (beats d c)) m)) by (intros; apply perm_forallb, P). apply perm_filter, P.
Qed.
Lemma perm_choice l m : Permutation l m ->
  choice l = choice m \/ exists c d, choice l = Some c /\ choice m = Some d /\ deleted c = true /\ deleted d = true /\ same c d.
Proof.
  intros P. assert (B := perm_best l m P). assert (L := perm_filter (fun c => negb (deleted c)) _ _ B). fold (live (best l)) in L. fold (live (best m)) in L. unfold choice.
  destruct (live (best l)) as [|x [|y r]] eqn:Ll.
  - apply Permutation_nil in L. rewrite L. destruct (best l) as [|c bl] eqn:Bl; destruct (best m) as [|d bm] eqn:Bm; [auto| | |].
    + apply Permutation_nil in B. discriminate.
    + apply Permutation_sym, Permutation_nil in B. discriminate.
    + right. exists c, d. assert (D : forall z q, live (z :: q) = [] -> deleted z = true) by (intros z q; unfold live; cbn [filter]; destruct (deleted z); [reflexivity|discriminate]).
      repeat split; try reflexivity; try (eapply D; eassumption);
        apply (best_same l c d); rewrite Bl; [left; reflexivity|apply (Permutation_in _ (Permutation_sym B)); left; reflexivity|left; reflexivity|apply (Permutation_in _ (Permutation_sym B)); left; reflexivity].
  - apply Permutation_length_1_inv in L. rewrite L. left. destruct (best l), (best m); reflexivity.
  - left. assert (N := Permutation_length L). destruct (live (best m)) as [|x' [|y' r']]; cbn in N; try lia. reflexivity.
Qed.
