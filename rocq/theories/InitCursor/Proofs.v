From Coq Require Import List Bool Arith Lia.
From Verif.InitCursor Require Import Model Spec.
Import ListNotations.
Section TyInd.
Variable P : ty -> Prop.
Hypothesis H1 : forall k, P (Scal k).
Hypothesis H2 : forall n b, P b -> P (Arr n b).
Hypothesis H3 : forall u i ms, Forall P ms -> P (Agg u i ms).
Fixpoint ty_ind' (t : ty) : P t :=
  match t with
  | Scal k => H1 k
  | Arr n b => H2 n b (ty_ind' b)
  | Agg u i ms => H3 u i ms ((fix go l : Forall P l := match l with [] => Forall_nil P | a :: l => Forall_cons a (ty_ind' a) (go l) end) ms)
  end.
End TyInd.
Section InitInd.
Variable P : init -> Prop.
Hypothesis H1 : forall e, P (Single e).
Hypothesis H2 : forall l, Forall (fun z => P (snd z)) l -> P (Lst l).
Fixpoint init_ind' (i : init) : P i :=
  match i with
  | Single e => H1 e
  | Lst l => H2 l ((fix go l : Forall (fun z => P (snd z)) l := match l with [] => Forall_nil _ | a :: l => Forall_cons a (init_ind' (snd a)) (go l) end) l)
  end.
End InitInd.

(** The iterator x of type t is at p and nothing of the subobject p has been initialized *)
Fixpoint rel (p : path) (x : it) (t : ty) : Prop :=
  match p with
  | [] => x = create t
  | i :: r =>
      match x, t with
      | IArr j n b (Some m), Arr n' b' => j = i /\ i < n /\ n = n' /\ b = b' /\ rel r m b
      | IAgg u j ms c a (Some m), Agg u' j' ms' => u = u' /\ j = j' /\ ms = ms' /\ c = i /\ (a = true -> i = 0) /\ exists t', nth_error ms i = Some t' /\ rel r m t'
      | _, _ => False
      end
  end.
Lemma wf_member u i ms k t : wf (Agg u i ms) = true -> nth_error ms k = Some t -> wf t = true /\ older i t = true.
Proof.
  intros H E. cbn [wf] in H. apply andb_true_iff in H as [_ H]. rewrite forallb_forall in H. apply nth_error_In in E. apply H in E. now apply andb_true_iff in E.
Qed.
Lemma wf_arr n b : wf (Arr n b) = true -> 0 < n /\ wf b = true.
Proof. cbn [wf]. intros H. apply andb_true_iff in H as [A B]. now apply Nat.ltb_lt in A. Qed.
Lemma wf_agg u i ms : wf (Agg u i ms) = true -> exists m r, ms = m :: r /\ wf m = true.
Proof. intros H. destruct ms as [|m r]; [discriminate|]. exists m, r. split; [reflexivity|]. now apply (wf_member _ _ _ 0 m H). Qed.
Lemma valid_create t : wf t = true -> valid (create t) = true.
Proof.
  induction t as [k|n b IH|u i ms IH] using ty_ind'; intros W; cbn [create valid]; auto.
  - apply wf_arr in W as [A _]. now apply Nat.ltb_lt.
  - apply wf_agg in W as [m [r [-> W]]]. inversion IH; subst. rewrite (H1 W). apply orb_true_r.
Qed.
Lemma rel_valid p : forall x t, wf t = true -> rel p x t -> valid x = true.
Proof.
  induction p as [|i r IH]; intros x t W H; cbn [rel] in H; [subst; now apply valid_create|].
  destruct x as [o|j n b [m|]|u j ms c a [m|]], t as [k'|n' b'|u' j' ms']; try contradiction.
  - destruct H as [-> [H _]]. cbn [valid]. now apply Nat.ltb_lt.
  - destruct H as [-> [-> [-> [-> [_ [t' [E R]]]]]]]. cbn [valid]. rewrite (IH m t' (proj1 (wf_member _ _ _ _ _ W E)) R). apply orb_true_r.
Qed.
Lemma type_create t : get_type (create t) = Some t.
Proof. destruct t; reflexivity. Qed.
Lemma type_rel p x t : rel p x t -> get_type x = Some t.
Proof.
  destruct p as [|i r]; cbn [rel]; [intros ->; apply type_create|].
  destruct x as [o|j n b [m|]|u j ms c a [m|]], t; try contradiction; cbn [get_type]; intros H; [destruct H as [_ [_ [-> [-> _]]]]|destruct H as [-> [-> [-> _]]]]; reflexivity.
Qed.

Lemma type_at_app q : forall t r, type_at t (q ++ r) = match type_at t q with Some t' => type_at t' r | None => None end.
Proof.
  induction q as [|i q IH]; intros t r; [reflexivity|]. cbn [app type_at].
  destruct t as [k|n b|u j ms]; [reflexivity| |].
  - destruct (i <? n); [apply IH|reflexivity].
  - destruct (nth_error ms i); [apply IH|reflexivity].
Qed.
Lemma wf_at q : forall t t', wf t = true -> type_at t q = Some t' -> wf t' = true.
Proof.
  induction q as [|i q IH]; intros t t' W E; cbn [type_at] in E; [now injection E as <-|].
  destruct t as [k|n b|u j ms]; [discriminate| |].
  - destruct (i <? n); [|discriminate]. eapply IH; [|exact E]. now apply wf_arr in W.
  - destruct (nth_error ms i) eqn:N; [|discriminate]. eapply IH; [|exact E]. now apply (wf_member _ _ _ _ _ W N).
Qed.
Lemma leaf_scal t : wf t = true -> exists k, type_at t (leaf t) = Some (Scal k).
Proof.
  induction t as [k|n b IH|u i ms IH] using ty_ind'; intros W; cbn [leaf type_at]; eauto.
  - apply wf_arr in W as [A B]. apply Nat.ltb_lt in A. rewrite A. auto.
  - apply wf_agg in W as [m [r [-> W]]]. inversion IH; subst. cbn [type_at nth_error]. auto.
Qed.
Lemma older_at q : forall t i u j ms, wf t = true -> older i t = true -> type_at t q = Some (Agg u j ms) -> j < i.
Proof.
  induction q as [|k q IH]; intros t i u j ms W O E; cbn [type_at] in E.
  - injection E as ->. cbn [older] in O. now apply Nat.ltb_lt.
  - destruct t as [k'|n b|u' j' ms']; [discriminate| |].
    + destruct (k <? n); [|discriminate]. eapply IH; [| |exact E]; [now apply wf_arr in W|exact O].
    + destruct (nth_error ms' k) eqn:N; [|discriminate]. destruct (wf_member _ _ _ _ _ W N) as [W1 O1].
      cbn [older] in O. apply Nat.ltb_lt in O. specialize (IH _ _ _ _ _ W1 O1 E). lia.
Qed.
Lemma match_strict e t1 s t2 : wf t1 = true -> matches e t1 = true -> s <> [] -> type_at t1 s = Some t2 -> matches e t2 = true -> False.
Proof.
  intros W M1 N E M2. destruct s as [|k s]; [congruence|].
  destruct e as [|i], t1 as [k1|n1 b1|u1 j1 ms1]; cbn [matches] in M1; try discriminate.
  destruct t2 as [k2|n2 b2|u2 j2 ms2]; cbn [matches] in M2; try discriminate.
  apply Nat.eqb_eq in M1, M2. subst. cbn [type_at] in E.
  destruct (nth_error ms1 k) eqn:Nt; [|discriminate]. destruct (wf_member _ _ _ _ _ W Nt) as [W1 O1].
  pose proof (older_at _ _ _ _ _ _ W1 O1 E). lia.
Qed.
Definition prefix (q f : path) : Prop := exists s, f = q ++ s.
Lemma prefix_cmp (q r : path) : forall f, prefix q f -> prefix r f -> prefix q r \/ prefix r q.
Proof.
  revert r. induction q as [|a q IH]; intros r f [s1 E1] [s2 E2]; [left; now exists r|].
  destruct r as [|b r]; [right; now exists (a :: q)|].
  subst f. cbn [app] in E2. injection E2 as -> E2.
  destruct (IH r (q ++ s1)) as [[s ->]|[s ->]]; [now exists s1|exists s2; exact E2| |].
  - left. now exists s.
  - right. now exists s.
Qed.
Lemma unique e t f q r t1 t2 : wf t = true -> prefix q f -> prefix r f -> type_at t q = Some t1 -> type_at t r = Some t2 -> matches e t1 = true -> matches e t2 = true -> q = r.
Proof.
  intros W P1 P2 E1 E2 M1 M2. destruct (prefix_cmp _ _ _ P1 P2) as [[s ->]|[s ->]].
  - rewrite type_at_app, E1 in E2. destruct s as [|k s]; [now rewrite app_nil_r|].
    exfalso. eapply (match_strict e t1 (k :: s)); eauto; [eapply wf_at; eauto|discriminate].
  - rewrite type_at_app, E2 in E1. destruct s as [|k s]; [now rewrite app_nil_r|].
    exfalso. eapply (match_strict e t2 (k :: s)); eauto; [eapply wf_at; eauto|discriminate].
Qed.

(** The options *)
Definition good (t : ty) (f : path) (l : list (ty * path)) : Prop := forall t' q, In (t', q) l -> type_at t q = Some t' /\ prefix q f.
Lemma good_push_arr n b i f l : i < n -> good b f l -> good (Arr n b) (i :: f) (map (push i) l).
Proof.
  intros L G t' q H. apply in_map_iff in H as [[t1 q1] [E H]]. unfold push in E. cbn [fst snd] in E. injection E as <- <-.
  apply G in H as [A [s ->]]. apply Nat.ltb_lt in L. cbn [type_at]. rewrite L. split; [exact A|]. now exists s.
Qed.
Lemma good_push_agg u j ms i m f l : nth_error ms i = Some m -> good m f l -> good (Agg u j ms) (i :: f) (map (push i) l).
Proof.
  intros L G t' q H. apply in_map_iff in H as [[t1 q1] [E H]]. unfold push in E. cbn [fst snd] in E. injection E as <- <-.
  apply G in H as [A [s ->]]. cbn [type_at]. rewrite L. split; [exact A|]. now exists s.
Qed.
Lemma good_self t f : good t f [(t, [])].
Proof. intros t' q [E|[]]. injection E as <- <-. split; [reflexivity|]. now exists f. Qed.
Lemma good_app t f a b : good t f a -> good t f b -> good t f (a ++ b).
Proof. intros A B t' q H. apply in_app_iff in H as [H|H]; auto. Qed.
Lemma good_nil t f : good t f [].
Proof. intros t' q []. Qed.
Lemma sound_create t : wf t = true -> good t (leaf t) (first (create t)).
Proof.
  induction t as [k|n b IH|u i ms IH] using ty_ind'; intros W; cbn [create first leaf].
  - apply good_self.
  - apply wf_arr in W as [A B]. rewrite (valid_create _ B). apply good_push_arr; auto.
  - pose proof (wf_agg _ _ _ W) as [m [r [-> W1]]]. inversion IH; subst. rewrite (valid_create _ W1).
    apply good_app; [apply good_self|]. apply (good_push_agg u i (m :: r) 0 m); [reflexivity|auto].
Qed.
Definition full (t : ty) (p : path) : path := p ++ match type_at t p with Some t' => leaf t' | None => [] end.
Lemma sound_rel p : forall x t, wf t = true -> rel p x t -> good t (full t p) (first x).
Proof.
  unfold full. induction p as [|i r IH]; intros x t W H; cbn [rel] in H; [subst; now apply sound_create|].
  destruct x as [o|j n b [m|]|u j ms c a [m|]], t as [k'|n' b'|u' j' ms']; try contradiction.
  - destruct H as [-> [L [-> [-> R]]]]. apply wf_arr in W as [_ W]. cbn [first type_at]. rewrite (rel_valid _ _ _ W R).
    pose proof L as L'. apply Nat.ltb_lt in L'. rewrite L'. cbn [app]. apply good_push_arr; auto.
  - destruct H as [-> [-> [-> [-> [_ [t' [E R]]]]]]]. destruct (wf_member _ _ _ _ _ W E) as [W1 _]. cbn [first type_at]. rewrite (rel_valid _ _ _ W1 R), E.
    apply good_app; [destruct a; [apply good_self|apply good_nil]|]. cbn [app]. eapply good_push_agg; eauto.
Qed.
Lemma in_push i t p l : In (t, p) l -> In (t, i :: p) (map (push i) l).
Proof. intros H. apply in_map_iff. now exists (t, p). Qed.
Lemma complete_create e t : wf t = true -> forall z, place e t = Some z -> exists t', In (t', z) (first (create t)) /\ matches e t' = true.
Proof.
  induction t as [k|n b IH|u i ms IH] using ty_ind'; intros W z H; cbn [create first place] in *.
  - destruct (matches e (Scal k)) eqn:M; [|discriminate]. injection H as <-. exists (Scal k). split; [now left|exact M].
  - apply wf_arr in W as [A B]. rewrite (valid_create _ B). replace (matches e (Arr n b)) with false in H by (destruct e; reflexivity).
    destruct (place e b) as [z'|]; [|discriminate]. injection H as <-. destruct (IH B _ eq_refl) as [t' [I M]]. exists t'. split; [now apply in_push|exact M].
  - pose proof (wf_agg _ _ _ W) as [m [r [-> W1]]]. inversion IH; subst. rewrite (valid_create _ W1).
    destruct (matches e (Agg u i (m :: r))) eqn:M.
    + injection H as <-. exists (Agg u i (m :: r)). split; [apply in_app_iff; left; now left|exact M].
    + destruct (place e m) as [z'|]; [|discriminate]. injection H as <-. destruct (H2 W1 _ eq_refl) as [t' [I M']]. exists t'. split; [apply in_app_iff; right; now apply in_push|exact M'].
Qed.
Lemma complete_rel e p : forall x t tp z, wf t = true -> rel p x t -> type_at t p = Some tp -> place e tp = Some z -> exists t', In (t', p ++ z) (first x) /\ matches e t' = true.
Proof.
  induction p as [|i r IH]; intros x t tp z W H E Pz; cbn [rel] in H.
  - subst. cbn [type_at] in E. injection E as <-. now apply complete_create.
  - destruct x as [o|j n b [m|]|u j ms c a [m|]], t as [k'|n' b'|u' j' ms']; try contradiction; cbn [type_at] in E.
    + destruct H as [-> [L [-> [-> R]]]]. apply wf_arr in W as [_ W]. cbn [first]. rewrite (rel_valid _ _ _ W R).
      destruct (i <? n'); [|discriminate]. destruct (IH _ _ _ _ W R E Pz) as [t' [I M]]. exists t'. split; [now apply in_push|exact M].
    + destruct H as [-> [-> [-> [-> [_ [t' [Et R]]]]]]]. destruct (wf_member _ _ _ _ _ W Et) as [W1 _]. cbn [first]. rewrite (rel_valid _ _ _ W1 R).
      rewrite Et in E. destruct (IH _ _ _ _ W1 R E Pz) as [t2 [I M]]. exists t2. split; [apply in_app_iff; right; now apply in_push|exact M].
Qed.
(** Positions in the object of a list *)
Definition proper (t : ty) (p : path) : bool := match t, p with Scal _, _ => true | _, [] => false | _, _ => true end.
Lemma options_in x t' q p t : rel p x t -> proper t p = true -> In (t', q) (first x) -> (is_agg t = true -> q <> []) -> In (t', q) (options x).
Proof.
  intros R Pp I N. destruct x as [o|j n b m|u j ms c a m]; cbn [options]; auto.
  cbn [first] in I. apply in_app_iff in I as [I|I]; [|exact I].
  destruct a; [|contradiction]. destruct I as [I|[]]. injection I as <- <-. apply type_rel in R. cbn [get_type] in R. injection R as <-. now destruct (N eq_refl).
Qed.
Lemma options_first x z : In z (options x) -> In z (first x).
Proof. destruct x as [o|j n b m|u j ms c a m]; cbn [options first]; auto. intros H. apply in_app_iff. now right. Qed.
Lemma pick e p x t tp z tz : wf t = true -> rel p x t -> proper t p = true -> type_at t p = Some tp -> place e tp = Some z -> type_at tp z = Some tz ->
  find (fun w => matches e (fst w)) (options x) = Some (tz, p ++ z).
Proof.
  intros W R Pp E Pz Tz. destruct (complete_rel e p x t tp z W R E Pz) as [t' [I M]].
  assert (I' : In (t', p ++ z) (options x)).
  { eapply options_in; eauto. intros A. destruct t; try discriminate. destruct p; [discriminate|]. discriminate. }
  destruct (find (fun w => matches e (fst w)) (options x)) as [[t1 q1]|] eqn:F.
  - apply find_some in F as [I1 M1]. cbn [fst] in M1.
    destruct (sound_rel _ _ _ W R _ _ (options_first _ _ I1)) as [A1 B1]. destruct (sound_rel _ _ _ W R _ _ (options_first _ _ I')) as [A2 B2].
    assert (q1 = p ++ z) as -> by (eapply unique; eauto). rewrite type_at_app, E, Tz in A1. now injection A1 as ->.
  - exfalso. apply (find_none _ _ F) in I'. cbn [fst] in I'. congruence.
Qed.

(** Steps *)
Lemma setpos_create q : forall t tq, type_at t q = Some tq -> exists x, setpos q (create t) = Ok x /\ rel q x t.
Proof.
  induction q as [|i q IH]; intros t tq E; cbn [type_at] in E; [cbn [setpos rel]; eauto|].
  destruct t as [k|n b|u j ms]; [discriminate| |]; cbn [create setpos].
  - destruct (i <? n) eqn:L; [|discriminate]. apply Nat.ltb_lt in L. destruct (IH _ _ E) as [x [-> R]]. cbn [bind]. eexists. split; [reflexivity|]. cbn [rel]. auto.
  - destruct (nth_error ms i) as [m|] eqn:N; [|discriminate]. destruct (IH _ _ E) as [x [-> R]]. cbn [bind]. eexists. split; [reflexivity|]. cbn [rel].
    repeat split; auto. 2: now exists m. intros H. apply andb_true_iff in H as [H _]. now apply Nat.eqb_eq.
Qed.
Lemma setpos_agg u j ms c a m q tq : q <> [] -> type_at (Agg u j ms) q = Some tq -> exists x, setpos q (IAgg u j ms c a m) = Ok x /\ rel q x (Agg u j ms).
Proof.
  intros N E. destruct q as [|i q]; [congruence|]. destruct (setpos_create (i :: q) _ _ E) as [x [A R]]. exists x. split; [exact A|exact R].
Qed.
Lemma setpos_rel p : forall x t z tq, rel p x t -> type_at t (p ++ z) = Some tq -> exists x', setpos (p ++ z) x = Ok x' /\ rel (p ++ z) x' t.
Proof.
  induction p as [|i r IH]; intros x t z tq H E; cbn [rel] in H; [subst; eapply setpos_create; eauto|].
  destruct x as [o|j n b [m|]|u j ms c a [m|]], t as [k'|n' b'|u' j' ms']; try contradiction.
  - destruct H as [-> [L [-> [-> R]]]]. cbn [app type_at] in E. destruct (i <? n'); [|discriminate].
    destruct (IH _ _ _ _ R E) as [x' [A B]]. cbn [app setpos]. rewrite A. cbn [bind]. eexists. split; [reflexivity|]. cbn [rel]. auto.
  - destruct H as [-> [-> [-> _]]]. eapply setpos_agg; eauto. discriminate.
Qed.
Lemma rel_leaf_create t : wf t = true -> rel (leaf t) (create t) t.
Proof.
  induction t as [k|n b IH|u i ms IH] using ty_ind'; intros W; cbn [create leaf rel]; auto.
  - apply wf_arr in W as [A B]. repeat split; auto.
  - pose proof (wf_agg _ _ _ W) as [m [r [-> W1]]]. inversion IH; subst. cbn [rel]. repeat split; auto. exists m. auto.
Qed.
Lemma rel_leaf q : forall x t t', wf t = true -> rel q x t -> type_at t q = Some t' -> rel (q ++ leaf t') x t.
Proof.
  induction q as [|i r IH]; intros x t t' W H E; cbn [rel] in H.
  - subst. cbn [type_at] in E. injection E as <-. now apply rel_leaf_create.
  - destruct x as [o|j n b [m|]|u j ms c a [m|]], t as [k'|n' b'|u' j' ms']; try contradiction; cbn [type_at] in E; cbn [app rel].
    + destruct H as [-> [L [-> [-> R]]]]. apply wf_arr in W as [_ W]. destruct (i <? n'); [|discriminate]. repeat split; auto.
    + destruct H as [-> [-> [-> [-> [Ha [t2 [Et R]]]]]]]. destruct (wf_member _ _ _ _ _ W Et) as [W1 _]. rewrite Et in E. repeat split; auto. exists t2. auto.
Qed.
Lemma big_arr i n b m : match (if S i <? n then Some [S i] else None) with Some q => rel q (big (IArr i n b m)) (Arr n b) | None => valid (big (IArr i n b m)) = false end.
Proof.
  cbn [big]. destruct (S i <? n) eqn:L; cbn [rel valid]; [|exact L]. apply Nat.ltb_lt in L. auto.
Qed.
Lemma big_agg u j ms i a m : i < length ms -> match (if negb u && (S i <? length ms) then Some [S i] else None) with Some q => rel q (big (IAgg u j ms i a m)) (Agg u j ms) | None => valid (big (IAgg u j ms i a m)) = false end.
Proof.
  intros L. destruct u; cbn [negb andb big]; [reflexivity|].
  destruct (S i <? length ms) eqn:L1.
  - apply Nat.ltb_lt in L1. rewrite Nat.min_l by lia. cbn [rel]. destruct (nth_error ms (S i)) as [t|] eqn:E; [|apply nth_error_None in E; lia].
    cbn [option_map]. repeat split; auto; [discriminate|]. now exists t.
  - apply Nat.ltb_ge in L1. rewrite Nat.min_r by lia. replace (nth_error ms (S i)) with (@None ty) by (symmetry; now apply nth_error_None).
    cbn [option_map valid negb]. rewrite Nat.ltb_irrefl. reflexivity.
Qed.
Lemma small_leaf q : forall x t k, wf t = true -> rel q x t -> type_at t q = Some (Scal k) -> match succ t q with Some q' => rel q' (small x) t | None => valid (small x) = false end.
Proof.
  induction q as [|i r IH]; intros x t k W H E; cbn [rel] in H.
  - subst. cbn [type_at] in E. injection E as ->. reflexivity.
  - destruct x as [o|j n b [m|]|u j ms c a [m|]], t as [k'|n' b'|u' j' ms']; try contradiction; cbn [type_at] in E; cbn [succ small].
    + destruct H as [-> [L [-> [-> R]]]]. apply wf_arr in W as [_ W]. destruct (i <? n'); [|discriminate].
      specialize (IH _ _ _ W R E). destruct (succ b' r) as [q|] eqn:S1.
      * rewrite (rel_valid _ _ _ W IH). cbn [rel]. auto.
      * rewrite IH. apply big_arr.
    + destruct H as [-> [-> [-> [-> [Ha [t2 [Et R]]]]]]]. destruct (wf_member _ _ _ _ _ W Et) as [W1 _]. rewrite Et in *.
      specialize (IH _ _ _ W1 R E). destruct (succ t2 r) as [q|] eqn:S1.
      * rewrite (rel_valid _ _ _ W1 IH). cbn [rel]. repeat split; auto; [discriminate|]. exists t2. auto.
      * rewrite IH. apply big_agg. apply nth_error_Some. congruence.
Qed.
Lemma big_short p x t : wf t = true -> rel p x t -> proper t p = true -> short p = true -> match succ t p with Some q => rel q (big x) t | None => True end.
Proof.
  intros W R Pp Sh. destruct p as [|i [|? ?]]; [exact I| |discriminate].
  destruct x as [o|j n b [m|]|u j ms c a [m|]], t as [k'|n' b'|u' j' ms']; try contradiction; cbn [rel] in R; cbn [succ].
  - destruct R as [-> [L [-> [-> ->]]]]. pose proof (big_arr i n' b' (Some (create b'))) as B. destruct (S i <? n'); [exact B|exact I].
  - destruct R as [-> [-> [-> [-> [Ha [t2 [Et ->]]]]]]]. rewrite Et. assert (L : i < length ms') by (apply nth_error_Some; congruence).
    pose proof (big_agg u' j' ms' i a (Some (create t2)) L) as B. destruct (negb u' && (S i <? length ms')); [exact B|exact I].
Qed.
Lemma next_short p x t tp : wf t = true -> rel p x t -> proper t p = true -> short p = true -> type_at t p = Some tp -> get_next x = Some tp.
Proof.
  intros W R Pp Sh E. destruct p as [|i [|? ?]]; [| |discriminate].
  - cbn [rel] in R. subst x. destruct t; try discriminate. exact E.
  - destruct x as [o|j n b [m|]|u j ms c a [m|]], t as [k'|n' b'|u' j' ms']; try contradiction; cbn [rel] in R; cbn [get_next].
    + destruct R as [-> [L [-> [-> ->]]]]. cbn [type_at] in E. destruct (i <? n'); [exact E|discriminate].
    + destruct R as [-> [-> [-> [-> [Ha [t2 [Et ->]]]]]]]. cbn [type_at] in E. rewrite Et in E. injection E as <-.
      rewrite (valid_create t2 (proj1 (wf_member _ _ _ _ _ W Et))). apply type_create.
Qed.
(** The iterator belongs to t *)
Definition shape (x : it) (t : ty) : Prop :=
  match x, t with ISimple _, Scal _ => True | IArr _ n b _, Arr n' b' => n = n' /\ b = b' | IAgg u j ms _ _ _, Agg u' j' ms' => u = u' /\ j = j' /\ ms = ms' | _, _ => False end.
Lemma rel_shape p x t : rel p x t -> shape x t.
Proof.
  destruct p as [|i r]; cbn [rel]; [intros ->; destruct t; cbn; auto|].
  destruct x as [o|j n b [m|]|u j ms c a [m|]], t; try contradiction; cbn [shape]; intuition.
Qed.
Lemma big_shape x t : shape x t -> shape (big x) t.
Proof. destruct x as [o|j n b m|[|] j ms c a m], t; cbn [shape big]; auto. Qed.
Lemma small_shape x t : shape x t -> shape (small x) t.
Proof.
  intros H. destruct x as [o|j n b [m|]|u j ms c a [m|]]; cbn [small]; try (apply big_shape; exact H).
  - exact H.
  - destruct (valid (small m)); [exact H|apply big_shape; exact H].
  - destruct (valid (small m)); [exact H|apply big_shape; exact H].
Qed.
Definition inv (x : it) (t : ty) (pos : option path) (lost : bool) : Prop :=
  shape x t /\ (lost = false -> match pos with Some p => rel p x t /\ proper t p = true | None => True end).
Lemma succ_proper t p q : succ t p = Some q -> proper t q = true.
Proof.
  destruct p as [|i r]; [discriminate|]. cbn [succ]. destruct t as [k|n b|u j ms]; [discriminate| |].
  - destruct (succ b r); [now intros [= <-]|]. destruct (S i <? n); [now intros [= <-]|discriminate].
  - destruct (nth_error ms i) as [m|]; [|discriminate]. destruct (succ m r); [now intros [= <-]|]. destruct (negb u && (S i <? length ms)); [now intros [= <-]|discriminate].
Qed.
Lemma same_eq a b : same a b = true -> a = b.
Proof. destruct a as [a|], b as [b|]; cbn [same]; try congruence. destruct (list_eq_dec Nat.eq_dec a b); congruence. Qed.
Lemma start_rel t : wf t = true -> rel (start t) (create t) t /\ proper t (start t) = true /\ type_at t (start t) <> None.
Proof.
  intros W. destruct t as [k|n b|u i ms]; cbn [start create rel proper type_at].
  - repeat split; auto; discriminate.
  - apply wf_arr in W as [A B]. repeat split; auto. apply Nat.ltb_lt in A. rewrite A. discriminate.
  - apply wf_agg in W as [m [r [-> W]]]. repeat split; auto; [now exists m|discriminate].
Qed.
Lemma desig_ok x t pos lost d td : wf t = true -> inv x t pos lost -> ok_desig d t pos lost = true -> d <> [] -> type_at t d = Some td -> exists x', setpos d x = Ok x' /\ rel d x' t.
Proof.
  intros W [Sh I] O N E. destruct d as [|i r]; [congruence|]. cbn [ok_desig] in O.
  destruct t as [k|n b|u j ms]; [discriminate| |].
  - apply andb_true_iff in O as [O1 O2]. apply negb_true_iff in O1. specialize (I O1). destruct pos as [p|]; [|discriminate]. destruct I as [R Pp].
    destruct p as [|j q]; [discriminate|]. destruct x as [o|j' n' b' [m|]|]; try contradiction. cbn [rel] in R. destruct R as [-> [L [-> [-> R]]]].
    cbn [type_at] in E. destruct (i <? n) eqn:Li; [|discriminate]. apply Nat.ltb_lt in Li.
    assert (X : exists m', setpos r m = Ok m' /\ rel r m' b).
    { apply orb_true_iff in O2 as [O2|O2].
      - destruct q; [|discriminate]. cbn [rel] in R. subst m. eapply setpos_create; eauto.
      - apply andb_true_iff in O2 as [A B]. destruct b as [|? ?|u2 j2 ms2]; try discriminate. apply rel_shape in R. destruct m as [| |u3 j3 ms3 c3 a3 m3]; try contradiction.
        destruct R as [-> [-> ->]]. eapply setpos_agg; eauto. intros ->. discriminate. }
    destruct X as [m' [A B]]. cbn [setpos]. rewrite A. cbn [bind]. eexists. split; [reflexivity|]. cbn [rel]. auto.
  - destruct x as [| |u3 j3 ms3 c3 a3 m3]; try contradiction. destruct Sh as [-> [-> ->]]. eapply setpos_agg; eauto.
Qed.
Lemma chain_at d : forall t td, type_at t d = Some td -> chain t d = Some td.
Proof.
  induction d as [|i r IH]; intros t td E; cbn [type_at chain] in *; [exact E|].
  destruct t as [k|n b|u j ms]; [discriminate| |].
  - destruct (i <? n); [auto|discriminate].
  - destruct (nth_error ms i); [auto|discriminate].
Qed.
Lemma shape_type x t : shape x t -> is_agg t = true \/ (exists n b, t = Arr n b) -> get_type x = Some t.
Proof. intros H [A|[n [b ->]]]; [destruct t; try discriminate|]; destruct x as [|? ? ? ?|? ? ? ? ? ?]; try contradiction; cbn [shape] in H; cbn [get_type]; [destruct H as [-> [-> ->]]|destruct H as [-> ->]]; reflexivity. Qed.

Theorem follows : forall i t p x nxt lg lost, wf t = true -> rel p x t -> proper t p = true -> spec i t p = Some (nxt, lg) -> fine i t p = Some lost ->
  exists x', run i x = Ok (x', lg) /\ inv x' t nxt lost.
Proof.
  induction i as [e|items IH] using init_ind'; intros t p x nxt lg lost W R Pp Sp F; cbn [spec fine] in Sp, F; destruct (type_at t p) as [tp|] eqn:E; try discriminate.
  - destruct (place e tp) as [z|] eqn:Pz; [|discriminate]. destruct (type_at tp z) as [tz|] eqn:Tz; [|discriminate].
    injection Sp as <- <-. injection F as <-. cbn [run]. rewrite (pick e p x t tp z tz W R Pp E Pz Tz).
    assert (Tq : type_at t (p ++ z) = Some tz) by now rewrite type_at_app, E.
    destruct (setpos_rel p x t z tz R Tq) as [x1 [-> R1]]. cbn [bind]. exists (small x1). split; [reflexivity|]. split; [apply small_shape; eapply rel_shape; eauto|].
    intros L. apply negb_false_iff in L. apply same_eq in L.
    pose proof (wf_at _ _ _ W Tq) as Wz. destruct (leaf_scal tz Wz) as [k Hk].
    assert (Tl : type_at t (p ++ z ++ leaf tz) = Some (Scal k)) by now rewrite app_assoc, type_at_app, Tq.
    pose proof (small_leaf (p ++ z ++ leaf tz) x1 t k W ltac:(rewrite app_assoc; now apply rel_leaf) Tl) as B. rewrite L in B.
    destruct (succ t (p ++ z)) as [q|] eqn:Sq; [|exact I]. split; [exact B|]. eapply succ_proper; eauto.
  - destruct (spec_items spec items tp (Some (start tp))) as [ls|] eqn:Si; [|discriminate]. injection Sp as <- <-.
    destruct (short p) eqn:Sh; [|discriminate]. cbn [andb] in F. destruct (fine_items fine items tp (Some (start tp)) false) eqn:Fi; [|discriminate]. injection F as <-.
    cbn [run]. rewrite (next_short p x t tp W R Pp Sh E).
    pose proof (wf_at _ _ _ W E) as Wp. destruct (start_rel tp Wp) as [R0 [P0 _]].
    assert (X : exists y, go_items run items (create tp) = Ok (y, ls)).
    { assert (Iv : inv (create tp) tp (Some (start tp)) false) by (split; [eapply rel_shape; eauto|auto]).
      revert Iv Si Fi. generalize (create tp) (Some (start tp)) false ls. clear - IH Wp.
      induction items as [|[d i] items IHi]; intros y pos lost l Iv Si Fi.
      - cbn [spec_items] in Si. injection Si as <-. exists y. reflexivity.
      - cbn [spec_items] in Si. fold (spec_items spec) in Si. cbn [fine_items] in Fi. fold (fine_items fine) in Fi. cbn [go_items]. fold (go_items run).
        inversion IH as [|? ? H1 H2]; subst. cbn [snd] in H1. apply andb_true_iff in Fi as [Od Fi].
        assert (D : exists y1 p, (match d with [] => pos | _ => match type_at tp d with Some _ => Some d | None => None end end) = Some p /\ (match d with [] => pos | _ => Some d end) = Some p /\ find_next y d = Ok y1 /\ rel p y1 tp /\ proper tp p = true).
        { destruct d as [|k d].
          - destruct pos as [p|]; [|discriminate]. destruct Iv as [_ Iv]. apply negb_true_iff in Od. destruct (Iv Od) as [A B]. exists y, p. auto.
          - destruct (type_at tp (k :: d)) as [td|] eqn:Td; [|discriminate].
            destruct (desig_ok _ _ _ _ _ _ Wp Iv Od ltac:(discriminate) Td) as [y1 [A B]]. exists y1, (k :: d). repeat split; auto.
            + cbn [find_next]. rewrite (shape_type y tp). 2: apply Iv. 2: { destruct tp; [discriminate|right; eauto|left; reflexivity]. }
              rewrite (chain_at _ _ _ Td). exact A.
            + destruct tp; reflexivity. }
        destruct D as [y1 [p [D1 [D2 [D3 [D4 D5]]]]]]. rewrite D1 in Si. rewrite D2 in Fi. rewrite D3. cbn [bind].
        destruct (spec i tp p) as [[nxt l1]|] eqn:S1; [|discriminate]. destruct (spec_items spec items tp nxt) as [ls'|] eqn:S2; [|discriminate]. injection Si as <-.
        destruct (fine i tp p) as [lost'|] eqn:F1; [|discriminate].
        destruct (H1 _ _ _ _ _ _ Wp D4 D5 S1 F1) as [y2 [-> Iv2]]. cbn [bind fst snd].
        destruct (IHi H2 _ _ _ _ Iv2 S2 Fi) as [y3 ->]. cbn [bind fst snd]. eauto. }
    destruct X as [y ->]. cbn [bind snd]. exists (big x). split; [reflexivity|]. split; [apply big_shape; eapply rel_shape; eauto|].
    intros _. pose proof (big_short p x t W R Pp Sh) as B. destruct (succ t p) as [q|] eqn:Sq; [|exact I]. split; [exact B|]. eapply succ_proper; eauto.
Qed.

Theorem resolve_spec i t lg : wf t = true -> spec_object i t = Some lg -> fine_object i t = true -> resolve i t = Ok lg.
Proof.
  intros W Sp F. unfold resolve. destruct i as [e|items]; cbn [spec_object] in Sp.
  - destruct (matches e t) eqn:M; [|discriminate]. injection Sp as <-. cbn [run options first find fst]. rewrite M. reflexivity.
  - unfold fine_object in F. destruct (spec (Lst items) t []) as [[nxt lg']|] eqn:Si; [|discriminate]. injection Sp as <-.
    destruct (fine (Lst items) t []) as [lost|] eqn:Fi; [|discriminate].
    cbn [run get_next]. cbn [spec type_at] in Si. destruct (spec_items spec items t (Some (start t))) as [ls|] eqn:Ss; [|discriminate]. injection Si as <- <-. cbn [snd].
    assert (Fx : fine (Lst items) (Arr 1 t) [0] = Some false).
    { cbn [fine type_at] in Fi |- *. change (0 <? 1) with true. cbv iota. cbn [short andb] in Fi |- *. destruct (fine_items fine items t (Some (start t)) false); [reflexivity|discriminate]. }
    assert (Sx : exists n, spec (Lst items) (Arr 1 t) [0] = Some (n, LL t ls)).
    { cbn [spec type_at]. change (0 <? 1) with true. cbv iota. rewrite Ss. eauto. }
    destruct Sx as [n Sx].
    destruct (follows (Lst items) (Arr 1 t) [0] (create (Arr 1 t)) n (LL t ls) false) as [x' [A _]]; auto.
    { cbn [create rel]. auto. }
    cbn [run get_next create] in A. destruct (go_items run items (create t)) as [w| |]; cbn [bind] in *; [|discriminate|discriminate]. injection A as _ ->. reflexivity.
Qed.
Lemma same_refl a : same a a = true.
Proof. destruct a as [a|]; cbn [same]; [|reflexivity]. destruct (list_eq_dec Nat.eq_dec a a); congruence. Qed.
Lemma place_scal t : forall z, place Sc t = Some z -> forall tz, type_at t z = Some tz -> exists k, tz = Scal k.
Proof.
  induction t as [k|n b IH|u i ms IH] using ty_ind'; intros z H tz E; cbn [place matches] in H.
  - injection H as <-. injection E as <-. eauto.
  - destruct (place Sc b) as [z'|]; [|discriminate]. injection H as <-. cbn [type_at] in E. destruct (0 <? n); [|discriminate]. eauto.
  - destruct ms as [|m r]; [discriminate|]. inversion IH; subst. destruct (place Sc m) as [z'|]; [|discriminate]. injection H as <-. cbn [type_at nth_error] in E. eauto.
Qed.
Lemma flat_items n : forall t pos ls, spec_items spec (repeat ([], Single Sc) n) t pos = Some ls -> fine_items fine (repeat ([], Single Sc) n) t pos false = true.
Proof.
  induction n as [|n IH]; intros t pos ls H; [reflexivity|]. cbn [repeat spec_items fine_items ok_desig negb andb] in *. fold (spec_items spec) in H. fold (fine_items fine).
  destruct pos as [p|]; [|discriminate]. destruct (spec (Single Sc) t p) as [[nxt l]|] eqn:S1; [|discriminate].
  destruct (spec_items spec (repeat ([], Single Sc) n) t nxt) as [l2|] eqn:S2; [|discriminate].
  cbn [spec] in S1. cbn [fine]. destruct (type_at t p) as [tp|]; [|discriminate]. destruct (place Sc tp) as [z|] eqn:Pz; [|discriminate]. destruct (type_at tp z) as [tz|] eqn:Tz; [|discriminate].
  destruct (place_scal _ _ Pz _ Tz) as [k ->]. cbn [leaf]. rewrite app_nil_r. injection S1 as <- <-. cbn [spec].
  rewrite same_refl. cbn [negb].
  eapply IH; eauto.
Qed.
Theorem flat_resolve n t lg : wf t = true -> spec_object (Lst (repeat ([], Single Sc) n)) t = Some lg -> resolve (Lst (repeat ([], Single Sc) n)) t = Ok lg.
Proof.
  intros W Sp. apply resolve_spec; auto. cbn [fine_object fine type_at short andb]. cbn [spec_object spec type_at] in Sp.
  destruct (spec_items spec (repeat ([], Single Sc) n) t (Some (start t))) eqn:E; [|discriminate]. now rewrite (flat_items _ _ _ _ E).
Qed.

(** Whatever the initializer: the types are those of subobjects *)
Fixpoint cons_it (x : it) (t : ty) : Prop :=
  match x with
  | ISimple o => match o with Some t' => t' = t | None => True end
  | IArr _ n b m => t = Arr n b /\ match m with Some m => cons_it m b | None => True end
  | IAgg u j ms c _ m => t = Agg u j ms /\ match m with Some m => exists t', nth_error ms c = Some t' /\ cons_it m t' | None => True end
  end.
Lemma cons_create t : cons_it (create t) t.
Proof.
  induction t as [k|n b IH|u i ms IH] using ty_ind'; cbn [create cons_it]; auto.
  split; [reflexivity|]. destruct ms as [|m r]; [exact I|]. inversion IH; subst. exists m. auto.
Qed.
Lemma cons_big x t : cons_it x t -> cons_it (big x) t.
Proof.
  destruct x as [o|i n b m|[|] j ms c a m]; cbn [big cons_it]; [auto|intros [-> _]; (split; [reflexivity|])|intros [-> _]; auto|intros [-> _]; (split; [reflexivity|])].
  - destruct (S i <? n); [apply cons_create|exact I].
  - destruct (nth_error ms (S c)) as [t|] eqn:E; cbn [option_map]; [|exact I]. exists t. split; [|apply cons_create].
    assert (S c < length ms) by (apply nth_error_Some; congruence). now rewrite Nat.min_l by lia.
Qed.
Lemma cons_small x : forall t, cons_it x t -> cons_it (small x) t.
Proof.
  revert x. fix IH 1. intros x t H. destruct x as [o|i n b [m|]|u j ms c a [m|]]; cbn [small]; try (apply cons_big; exact H).
  - exact I.
  - destruct (valid (small m)); [|apply cons_big; exact H]. cbn [cons_it] in *. destruct H as [-> H]. split; [reflexivity|]. apply IH. exact H.
  - destruct (valid (small m)); [|apply cons_big; exact H]. cbn [cons_it] in *. destruct H as [-> [t' [E H]]]. split; [reflexivity|]. exists t'. split; [exact E|]. apply IH. exact H.
Qed.
Lemma cons_setpos d : forall x t x', cons_it x t -> setpos d x = Ok x' -> cons_it x' t.
Proof.
  induction d as [|i r IH]; intros x t x' H E; cbn [setpos] in E; [now injection E as <-|].
  destruct x as [o|k n b [m|]|u j ms c a m]; try discriminate; cbn [cons_it] in H.
  - destruct H as [-> H]. destruct (setpos r m) as [m'| |] eqn:Em; cbn [bind] in E; try discriminate. injection E as <-. cbn [cons_it]. eauto.
  - destruct H as [-> _]. destruct (nth_error ms i) as [t|] eqn:N; [|discriminate]. destruct (setpos r (create t)) as [m'| |] eqn:Em; cbn [bind] in E; try discriminate. injection E as <-.
    cbn [cons_it]. split; [reflexivity|]. exists t. split; [exact N|]. eapply IH; [|exact Em]. apply cons_create.
Qed.
Lemma cons_first x : forall t t' q, cons_it x t -> In (t', q) (first x) -> chain t q = Some t'.
Proof.
  revert x. fix IH 1. intros x t t' q H I0. destruct x as [[o|]|i n b [m|]|u j ms c a m]; cbn [first cons_it] in *; try contradiction.
  - subst. destruct I0 as [E|[]]. now injection E as <- <-.
  - destruct H as [-> H]. destruct (valid m); [|contradiction]. apply in_map_iff in I0 as [[t1 q1] [E I0]]. unfold push in E. cbn [fst snd] in E. injection E as <- <-. cbn [chain]. eapply IH; eauto.
  - destruct H as [-> H]. apply in_app_iff in I0 as [I0|I0].
    + destruct a; [|contradiction]. destruct I0 as [E|[]]. now injection E as <- <-.
    + destruct m as [m|]; [|contradiction]. destruct (valid m); [|contradiction]. destruct H as [t2 [N H]]. apply in_map_iff in I0 as [[t1 q1] [E I0]]. unfold push in E. cbn [fst snd] in E. injection E as <- <-.
      cbn [chain]. rewrite N. eapply IH; eauto.
Qed.
Fixpoint typed (t : ty) (l : log) : Prop :=
  match l with LS p t' => chain t p = Some t' | LL t' ls => (exists q, chain t q = Some t') /\ fold_right and True (map (typed t') ls) end.
Lemma cons_next x t t' : cons_it x t -> get_next x = Some t' -> exists q, chain t q = Some t'.
Proof.
  destruct x as [[o|]|i n b m|u j ms c a [m|]]; cbn [cons_it get_next]; [| |  | |discriminate].
  2: discriminate.
  - intros -> [= ->]. now exists [].
  - intros [-> _] [= ->]. now exists [0].
  - intros [-> [t2 [N H]]] E. destruct (valid m); [|discriminate]. exists [c]. cbn [chain]. rewrite N.
    destruct m as [[o|]|? ? ? ?|? ? ? ? ? ?]; cbn [get_type cons_it] in *; [injection E as ->; now subst|discriminate|destruct H as [-> _]; exact E|destruct H as [-> _]; exact E].
Qed.
Theorem run_typed : forall i t x x' lg, cons_it x t -> run i x = Ok (x', lg) -> cons_it x' t /\ typed t lg.
Proof.
  induction i as [e|items IH] using init_ind'; intros t x x' lg H R; cbn [run] in R.
  - destruct (find _ (options x)) as [[t1 p]|] eqn:F; [|discriminate]. destruct (setpos p x) as [x1| |] eqn:Sx; cbn [bind] in R; try discriminate. injection R as <- <-.
    split; [apply cons_small; eapply cons_setpos; eauto|]. cbn [typed]. apply find_some in F as [I1 _]. eapply cons_first; eauto. now apply options_first.
  - destruct (get_next x) as [t'|] eqn:N; [|discriminate]. destruct (go_items run items (create t')) as [[y ls]| |] eqn:G; cbn [bind] in R; try discriminate. injection R as <- <-. cbn [snd].
    split; [now apply cons_big|]. cbn [typed]. split; [eapply cons_next; eauto|].
    assert (Hc : cons_it (create t') t') by apply cons_create. revert G Hc. generalize (create t'). clear - IH. revert ls.
    induction items as [|[d i] items IHi]; intros ls z G Hc; cbn [go_items] in G; [injection G as <- <-; exact I|]. fold (go_items run) in G.
    inversion IH as [|? ? H1 H2]; subst. cbn [snd] in H1.
    destruct (find_next z d) as [z1| |] eqn:Fn; cbn [bind] in G; try discriminate.
    assert (Hz1 : cons_it z1 t').
    { destruct d as [|k d]; cbn [find_next] in Fn; [now injection Fn as <-|]. destruct (get_type z) as [tz|]; [|discriminate]. destruct (chain tz (k :: d)); [|discriminate]. eapply cons_setpos; eauto. }
    destruct (run i z1) as [[z2 l]| |] eqn:R1; cbn [bind fst snd] in G; try discriminate. destruct (H1 _ _ _ _ Hz1 R1) as [Hz2 Tl].
    destruct (go_items run items z2) as [[z3 l3]| |] eqn:G2; cbn [bind fst snd] in G; try discriminate. injection G as <- <-.
    cbn [map fold_right]. split; [exact Tl|]. eapply IHi; eauto.
Qed.
Theorem resolve_typed i t lg : resolve i t = Ok lg -> typed t lg.
Proof.
  unfold resolve. intros H. destruct (run i (ISimple (Some t))) as [[x l]| |] eqn:R; cbn [bind] in H; try discriminate. injection H as <-. cbn [snd].
  eapply run_typed; [|exact R]. reflexivity.
Qed.
