From Coq Require Import List Bool Arith ZArith Lia ZifyBool Permutation.
From Verif.BasicTypes Require Import Model Spec.
Import ListNotations.
Open Scope Z_scope.
Lemma nw_refl x : noworse x x. Proof. right; lia. Qed.
Lemma nw_trans x y z : noworse x y -> noworse y z -> noworse x z.
Proof. unfold noworse; lia. Qed.
Lemma nw_anti x y : noworse x y -> noworse y x -> x = y.
Proof. destruct x, y; unfold noworse; cbn [fst snd]; intros; f_equal; lia. Qed.
Lemma nw_before x y : before x y = false <-> noworse y x.
Proof. unfold before, noworse; lia. Qed.
Lemma edge_pos g a b : noworse (0, 0) (edge g a b).
Proof. unfold noworse, edge; cbn [fst snd]; left; lia. Qed.
Lemma nw_plus w e : noworse (0, 0) e -> noworse w (plus w e).
Proof. unfold noworse, plus; cbn [fst snd]; lia. Qed.
Lemma nw_mono w v e : noworse w v -> noworse (plus w e) (plus v e).
Proof. unfold noworse, plus; cbn [fst snd]; lia. Qed.
Lemma set_length {A} i (x : A) l : length (set i x l) = length l.
Proof. revert i; induction l as [|y l IH]; intros [|i]; cbn [set length]; auto. Qed.
Lemma nth_set {A} i j (x d : A) l : (i < length l)%nat -> nth j (set i x l) d = if Nat.eqb j i then x else nth j l d.
Proof.
  revert i j; induction l as [|y l IH]; intros [|i] [|j] H; cbn [length] in H; try lia; cbn [set nth Nat.eqb]; auto.
  apply IH; lia.
Qed.
Lemma take_len (e : el) q q' : Permutation q (e :: q') -> length q = S (length q').
Proof. intros H; apply Permutation_length in H; auto. Qed.
Lemma take_in (e : el) q q' : Permutation q (e :: q') -> forall x, In x q <-> x = e \/ In x q'.
Proof. intros P x; split; intros J; [apply (Permutation_in _ P) in J; destruct J; auto|apply (Permutation_in _ (Permutation_sym P)); destruct J; [left|right]; auto]. Qed.
(** what holds at the head of the loop *)
Record inv (g : graph) (r : nat) (s : state) : Prop := {
  i_len : length (snd s) = length g;
  i_q : forall i w, In (i, w) (fst s) -> (i < length g)%nat /\ path g r i w;
  i_m : forall i w, nth i (snd s) None = Some w -> path g r i w;
  i_le : forall i w x, nth i (snd s) None = Some w -> In x (fst s) -> noworse w (snd x);
  i_root : In (r, (0, 0)) (fst s) \/ exists w, nth r (snd s) None = Some w /\ noworse w (0, 0);
  i_kid : forall i w k, nth i (snd s) None = Some w -> In k (kids (at_ g i)) ->
    In (k, plus w (edge g i k)) (fst s) \/ exists v, nth k (snd s) None = Some v /\ noworse v (plus w (edge g i k)) }.
Lemma nth_repeat_none i n : nth i (repeat (@None (Z * Z)) n) None = None.
Proof. revert i; induction n; intros [|i]; cbn [repeat nth]; auto. Qed.
Lemma inv_start g r : (r < length g)%nat -> inv g r (start g r).
Proof.
  intros H; constructor; unfold start; cbn [fst snd].
  - apply repeat_length.
  - intros i w [E|[]]; inversion E; subst; split; [auto|constructor].
  - intros i w E; rewrite nth_repeat_none in E; discriminate.
  - intros i w x E; rewrite nth_repeat_none in E; discriminate.
  - left; left; auto.
  - intros i w k E; rewrite nth_repeat_none in E; discriminate.
Qed.
Lemma inv_turn g r s t : wf g -> inv g r s -> turn g s t -> inv g r t.
Proof.
  intros W I T; destruct T as [[c x] q q' m T B]; destruct I as [L1 L2 L3 L4 L5 L6]; cbn [fst snd] in *.
  pose proof (take_in _ _ _ T) as TI.
  assert (Hc : In (c, x) q) by (apply TI; auto).
  destruct (L2 c x Hc) as [Lc Pc].
  unfold visit; cbn [fst snd]; destruct (nth c m None) as [w|] eqn:E.
  - (* seen *) constructor; cbn [fst snd]; auto.
    + intros i v J; apply L2, TI; auto.
    + intros i v y J K; eapply L4; eauto; apply TI; auto.
    + destruct L5 as [J|J]; auto. apply TI in J; destruct J as [J|J]; auto. injection J; intros J3 J2; subst c x; right; exists w; split; auto. apply (L4 r w _ E Hc).
    + intros i v k J K; destruct (L6 i v k J K) as [J1|J1]; auto. apply TI in J1; destruct J1 as [J1|J1]; auto.
      injection J1; intros J3 J2; subst k x; right; exists w; split; auto. apply (L4 c w _ E Hc).
  - (* visited *) assert (Lm : (c < length m)%nat) by lia. constructor; cbn [fst snd].
    + rewrite set_length; auto.
    + intros i v J; apply in_app_iff in J; destruct J as [J|J].
      * apply in_map_iff in J; destruct J as (k & J & K); inversion J; subst; split; [eapply W; eauto|constructor; auto].
      * apply L2, TI; auto.
    + intros i v J; rewrite nth_set in J by auto; destruct (Nat.eqb_spec i c); [inversion J; subst; auto|auto].
    + intros i v y J K.
      assert (Hv : noworse v x).
      { rewrite nth_set in J by auto; destruct (Nat.eqb_spec i c); [inversion J; subst; apply nw_refl|apply (L4 i v _ J Hc)]. }
      apply in_app_iff in K; destruct K as [K|K].
      * apply in_map_iff in K; destruct K as (k & K & _); subst y; cbn [snd]. eapply nw_trans; [apply Hv|apply nw_plus, edge_pos].
      * eapply nw_trans; [apply Hv|]. apply nw_before, B, TI; auto.
    + destruct L5 as [J|(w & J & K)].
      * apply TI in J; destruct J as [J|J].
        -- injection J; intros J3 J2; subst c x; right; exists (0, 0); rewrite nth_set, Nat.eqb_refl by auto; split; auto. apply nw_refl.
        -- left; apply in_app_iff; auto.
      * right; exists w; rewrite nth_set by auto; destruct (Nat.eqb_spec r c); [congruence|auto].
    + intros i v k J K; rewrite nth_set in J by auto; destruct (Nat.eqb_spec i c) as [D|D].
      * inversion J; subst; left; apply in_app_iff; left; apply in_map_iff; eauto.
      * destruct (L6 i v k J K) as [J1|(u & J1 & J2)].
        -- apply TI in J1; destruct J1 as [J1|J1]; [|left; apply in_app_iff; auto].
           injection J1; intros J3 J2; subst k x; right; eexists; rewrite nth_set, Nat.eqb_refl by auto; split; eauto. apply nw_refl.
        -- right; exists u; rewrite nth_set by auto; destruct (Nat.eqb_spec k c); [congruence|auto].
Qed.
Lemma inv_turns g r n s t : wf g -> turns g n s t -> inv g r s -> inv g r t.
Proof. intros W T; induction T; auto. intros I; apply IHT; eapply inv_turn; eauto. Qed.
Lemma inv_end g r m : inv g r ([], m) -> forall c v, path g r c v -> exists w, nth c m None = Some w /\ noworse w v.
Proof.
  intros I c v P; induction P as [|b v k P (w & IH1 & IH2) K].
  - destruct (i_root _ _ _ I) as [[]|J]; auto.
  - destruct (i_kid _ _ _ I b w k IH1 K) as [[]|(u & J1 & J2)]. exists u; split; auto. eapply nw_trans; [apply J2|apply nw_mono; auto].
Qed.
Lemma end_best g r m : inv g r ([], m) -> forall c, match nth c m None with Some w => best g r c w | None => forall w, ~ path g r c w end.
Proof.
  intros I c; destruct (nth c m None) as [w|] eqn:E.
  - split; [apply (i_m _ _ _ I); auto|]. intros v P; destruct (inv_end _ _ _ I c v P) as (u & J & K). cbn [snd] in *; congruence.
  - intros w P; destruct (inv_end _ _ _ I c w P) as (u & J & K); congruence.
Qed.
Lemma best_unique g a b w v : best g a b w -> best g a b v -> w = v.
Proof. intros [P1 L1] [P2 L2]; apply nw_anti; auto. Qed.
(** the loop ends *)
Fixpoint unseen (m : row) : nat := match m with [] => 0 | None :: m => S (unseen m) | Some _ :: m => unseen m end.
Lemma unseen_set i x m : nth i m None = None -> (i < length m)%nat -> unseen m = S (unseen (set i (Some x) m)).
Proof.
  revert i; induction m as [|y m IH]; intros [|i] H L; cbn [length nth] in *; try lia.
  - subst; cbn [set unseen]; auto.
  - cbn [set unseen]; destruct y; rewrite (IH i) by (auto; lia); auto.
Qed.
Definition size (s : state) : nat := (3 * unseen (snd s) + length (fst s))%nat.
Lemma kids_len n : (length (kids n) <= 3)%nat.
Proof. unfold kids; destruct (left n), (middle n), (right n); cbn [length]; lia. Qed.
Lemma turn_size g r s t : inv g r s -> turn g s t -> (size t < size s)%nat.
Proof.
  intros I T; destruct T as [[c x] q q' m T B]; unfold size, visit; cbn [fst snd].
  pose proof (take_len _ _ _ T). assert (Hc : In (c, x) q) by (eapply take_in; eauto).
  destruct (i_q _ _ _ I c x Hc) as [Lc _]. pose proof (i_len _ _ _ I) as Ln; cbn [fst snd] in *.
  destruct (nth c m None) eqn:E; cbn [fst snd]; [lia|].
  assert (Lm : (c < length m)%nat) by lia. pose proof (unseen_set c x m E Lm). rewrite app_length, map_length. pose proof (kids_len (at_ g c)); unfold el, row in *; lia.
Qed.
Lemma turns_size g r n s t : wf g -> turns g n s t -> inv g r s -> (n + size t <= size s)%nat.
Proof.
  intros W T; induction T; intros I; [lia|]. pose proof (turn_size _ _ _ _ I H). pose proof (IHT (inv_turn _ _ _ _ W I H)); lia.
Qed.
Lemma unseen_start n : unseen (repeat None n) = n.
Proof. induction n; cbn [repeat unseen]; auto. Qed.
Lemma size_start g r : size (start g r) = (3 * length g + 1)%nat.
Proof. unfold size, start; cbn [fst snd length]; rewrite unseen_start; lia. Qed.
Lemma top_ok e q : Permutation (e :: q) (fst (top e q) :: snd (top e q)) /\ forall x, In x (e :: q) -> before (snd x) (snd (fst (top e q))) = false.
Proof.
  revert e; induction q as [|y q IH]; intros e; cbn [top].
  - cbn [fst snd]; split; [reflexivity|]. intros x [->|[]]; apply nw_before, nw_refl.
  - destruct (before (snd y) (snd e)) eqn:B.
    + destruct (IH y) as [A1 A2]; destruct (top y q) as [t r]; cbn [fst snd] in *; split; [rewrite A1; apply perm_swap|].
      intros x [->|J]; auto. specialize (A2 y (or_introl eq_refl)). revert A2 B; unfold before; lia.
    + destruct (IH e) as [A1 A2]; destruct (top e q) as [t r]; cbn [fst snd] in *; split.
      * rewrite perm_swap, A1; apply perm_swap.
      * intros x [->|[->|J]]; auto. { apply A2; left; auto. } { specialize (A2 e (or_introl eq_refl)). revert A2 B; unfold before; lia. } { apply A2; right; auto. }
Qed.
Lemma top_turn g e q m : let (t, r) := top e q in turn g (e :: q, m) (visit g t r m).
Proof. pose proof (top_ok e q) as [A1 A2]; destruct (top e q) as [t r]; cbn [fst snd] in *; constructor; auto. Qed.
Lemma loop_turns g r fuel s : wf g -> inv g r s -> (size s <= fuel)%nat -> exists n m, loop g fuel s = Some m /\ turns g n s ([], m).
Proof.
  intros W; revert s; induction fuel as [|f IH]; intros [q m] I L.
  - destruct q as [|e q]; [|unfold size in L; cbn [fst snd length] in L; lia]. exists 0%nat, m; split; [reflexivity|constructor].
  - destruct q as [|e q]; [exists 0%nat, m; split; [reflexivity|constructor]|].
    cbn [loop fst snd]; pose proof (top_turn g e q m) as T; destruct (top e q) as [t rr].
    pose proof (turn_size _ _ _ _ I T). destruct (IH (visit g t rr m)) as (n & m' & J1 & J2); [eapply inv_turn; eauto|lia|].
    exists (S n), m'; split; auto. econstructor; eauto.
Qed.
Lemma progress g s : fst s <> [] -> exists t, turn g s t.
Proof. destruct s as [[|e q] m]; cbn [fst]; [congruence|intros _]. pose proof (top_turn g e q m) as T; destruct (top e q); eauto. Qed.
(** generateCosts *)
Lemma run_best g r n m : wf g -> (r < length g)%nat -> turns g n (start g r) ([], m) ->
  length m = length g /\ forall c, match nth c m None with Some w => best g r c w | None => forall w, ~ path g r c w end.
Proof.
  intros W R T; pose proof (inv_turns _ _ _ _ _ W T (inv_start g r R)) as I; split; [apply (i_len _ _ _ I)|apply end_best; auto].
Qed.
Lemma costs_some g r : wf g -> (r < length g)%nat -> exists n m, costs g r = Some m /\ turns g n (start g r) ([], m).
Proof. intros W R; apply (loop_turns g r); auto. { apply inv_start; auto. } rewrite size_start; auto. Qed.
Lemma map_nth' {A B} (f : A -> B) l i d d' : (i < length l)%nat -> nth i (map f l) d = f (nth i l d').
Proof. intros H; rewrite nth_indep with (d' := f d') by (rewrite map_length; auto). apply map_nth. Qed.
Lemma gen_entry g r c : wf g -> (r < length g)%nat -> (c < length g)%nat ->
  (exists w, best g r c w /\ at2 (-1) (gen_cost g) r c = fst w /\ at2 (-1) (gen_sign g) r c = snd w) \/
  ((forall w, ~ path g r c w) /\ at2 (-1) (gen_cost g) r c = -1 /\ at2 (-1) (gen_sign g) r c = -1).
Proof.
  intros W R C; destruct (costs_some g r W R) as (n & m & E & T); destruct (run_best g r n m W R T) as [L B].
  assert (K : forall f : Z * Z -> Z, at2 (-1) (map (fun r => map f (gen_row g r)) (seq 0 (length g))) r c = f (show (nth c m None))).
  { intros f; unfold at2. rewrite (map_nth' (fun r => map f (gen_row g r)) _ _ _ 0%nat), seq_nth by (rewrite ?seq_length; auto). cbn [Nat.add].
    unfold gen_row; rewrite E, map_map. rewrite (map_nth' (fun x => f (show x)) _ _ _ None) by (rewrite L; auto). auto. }
  unfold gen_cost, gen_sign; rewrite !K. specialize (B c); destruct (nth c m None) as [w|]; cbn [show]; [left; eauto|right; auto].
Qed.
(** the tables *)
Lemma the_wf : wf the_graph.
Proof.
  intros a k H. assert (A : forallb (fun a => forallb (fun k => (k <? 36)%nat) (kids (at_ the_graph a))) (seq 0 36) = true) by (vm_compute; reflexivity).
  destruct (Nat.lt_ge_cases a 36) as [L|L].
  - rewrite forallb_forall in A. assert (I : In a (seq 0 36)) by (apply in_seq; lia). specialize (A a I). rewrite forallb_forall in A. specialize (A k H). apply Nat.ltb_lt in A; auto.
  - unfold at_ in H; rewrite nth_overflow in H by auto; destruct H.
Qed.
Lemma gen_cost_is : gen_cost the_graph = costMatrix. Proof. vm_compute; reflexivity. Qed.
Lemma gen_sign_is : gen_sign the_graph = signMatrix. Proof. vm_compute; reflexivity. Qed.
Lemma gen_common_is : gen_commons the_graph = map (map Kind) commonTypes. Proof. vm_compute; reflexivity. Qed.
Definition all1 (p : nat -> bool) : bool := forallb p (seq 0 36).
Lemma all1_ok p : all1 p = true -> forall a, kind a -> p a = true.
Proof. unfold all1; rewrite forallb_forall; intros H a A; apply H, in_seq; unfold kind, kinds in A; lia. Qed.
Definition all2 (p : nat -> nat -> bool) : bool := all1 (fun a => all1 (p a)).
Lemma all2_ok p : all2 p = true -> forall a b, kind a -> kind b -> p a b = true.
Proof. intros H a b A B; apply all1_ok; auto. exact (all1_ok _ H a A). Qed.
Definition all3 (p : nat -> nat -> nat -> bool) : bool := all1 (fun a => all2 (p a)).
Lemma all3_ok p : all3 p = true -> forall a b c, kind a -> kind b -> kind c -> p a b c = true.
Proof. intros H a b c A B C; apply all2_ok; auto. exact (all1_ok _ H a A). Qed.
Lemma common_kind a b : kind a -> kind b -> kind (commonOf a b).
Proof. intros A B; apply Nat.ltb_lt; revert a b A B; apply all2_ok; vm_compute; reflexivity. Qed.
Lemma common_comm a b : kind a -> kind b -> commonOf a b = commonOf b a.
Proof. intros A B; apply Nat.eqb_eq; revert a b A B; apply all2_ok; vm_compute; reflexivity. Qed.
Lemma common_idem a : kind a -> commonOf a a = a.
Proof. intros A; apply Nat.eqb_eq; revert a A; apply all1_ok; vm_compute; reflexivity. Qed.
Lemma common_assoc a b c : kind a -> kind b -> kind c -> commonOf (commonOf a b) c = commonOf a (commonOf b c).
Proof. intros A B C; apply Nat.eqb_eq; revert a b c A B C; apply all3_ok; vm_compute; reflexivity. Qed.
Lemma cost_refl a : kind a -> costOf a a = 0 /\ signOf a a = 0.
Proof. intros A; assert (K : (costOf a a =? 0) && (signOf a a =? 0) = true) by (revert a A; apply all1_ok; vm_compute; reflexivity); lia. Qed.
Lemma cost_anti a b : kind a -> kind b -> safe a b -> safe b a -> a = b.
Proof.
  intros A B; unfold safe. assert (K : implb ((0 <=? costOf a b) && (0 <=? costOf b a)) (a =? b)%nat = true) by (revert a b A B; apply all2_ok; vm_compute; reflexivity). lia.
Qed.
Lemma cost_tri a b c : kind a -> kind b -> kind c -> safe a b -> safe b c -> safe a c /\ costOf a c <= costOf a b + costOf b c.
Proof.
  intros A B C; unfold safe.
  assert (K : implb ((0 <=? costOf a b) && (0 <=? costOf b c)) ((0 <=? costOf a c) && (costOf a c <=? costOf a b + costOf b c)) = true) by (revert a b c A B C; apply all3_ok; vm_compute; reflexivity). lia.
Qed.
Lemma common_up a b : kind a -> kind b -> safe a (commonOf a b) /\ safe b (commonOf a b).
Proof. intros A B; unfold safe; assert (K : (0 <=? costOf a (commonOf a b)) && (0 <=? costOf b (commonOf a b)) = true) by (revert a b A B; apply all2_ok; vm_compute; reflexivity). lia. Qed.
Lemma common_least a b d : kind a -> kind b -> kind d -> safe a d -> safe b d -> safe (commonOf a b) d.
Proof.
  intros A B D; unfold safe.
  assert (K : implb ((0 <=? costOf a d) && (0 <=? costOf b d)) (0 <=? costOf (commonOf a b) d) = true) by (revert a b d A B D; apply all3_ok; vm_compute; reflexivity). lia.
Qed.
Lemma all_kind l a : kind a -> Forall kind l -> kind (commonAll a l).
Proof. revert a; induction l as [|b l IH]; intros a A H; cbn [commonAll fold_left]; auto. inversion H; subst; apply IH; auto. apply common_kind; auto. Qed.
Lemma all_up l a : kind a -> Forall kind l -> forall x, In x (a :: l) -> safe x (commonAll a l).
Proof.
  revert a; induction l as [|b l IH]; intros a A H x J.
  - destruct J as [->|[]]; unfold commonAll, safe; cbn [fold_left]; destruct (cost_refl x A); lia.
  - inversion H as [|? ? Hb Hl]; subst; cbn [commonAll fold_left]. destruct (common_up a b A Hb) as [U1 U2].
    pose proof (common_kind a b A Hb) as Kc. assert (Kl : kind (commonAll (commonOf a b) l)) by (apply all_kind; auto).
    pose proof (IH (commonOf a b) Kc Hl (commonOf a b) (or_introl eq_refl)) as U3.
    destruct J as [->|[->|J]].
    + apply (cost_tri x (commonOf x b)); auto.
    + apply (cost_tri x (commonOf a x)); auto.
    + apply (IH (commonOf a b)); auto. right; auto.
Qed.
Lemma all_least l a d : kind a -> Forall kind l -> kind d -> (forall x, In x (a :: l) -> safe x d) -> safe (commonAll a l) d.
Proof.
  revert a; induction l as [|b l IH]; intros a A H D J.
  - apply J; left; auto.
  - inversion H as [|? ? Hb Hl]; subst; cbn [commonAll fold_left]. apply IH; auto. { apply common_kind; auto. }
    intros x [<-|K]; [apply common_least; auto; apply J; cbn; auto|apply J; right; right; auto].
Qed.
Lemma all_perm a l b k : kind a -> Forall kind l -> Permutation (a :: l) (b :: k) -> commonAll a l = commonAll b k.
Proof.
  intros A L P. assert (F : Forall kind (b :: k)). { eapply Permutation_Forall; [apply P|constructor; auto]. }
  inversion F as [|? ? B K]; subst. apply cost_anti; try (apply all_kind; auto).
  - apply all_least; auto. { apply all_kind; auto. } intros x J; apply all_up; auto. eapply Permutation_in; eauto.
  - apply all_least; auto. { apply all_kind; auto. } intros x J; apply all_up; auto. eapply Permutation_in; [apply Permutation_sym, P|auto].
Qed.
