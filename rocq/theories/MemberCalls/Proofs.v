From Coq Require Import List Bool Arith Lia.
From Verif.MemberCalls Require Import Model Spec.
Import ListNotations.
Section StmtInd.
Variable P : stmt -> Prop.
Hypothesis H1 : forall m us, P (SInit m us).
Hypothesis H2 : P SDeleg.
Hypothesis H3 : forall m, P (SUse m).
Hypothesis H4 : P SRet.
Hypothesis H5 : forall a b, Forall P a -> Forall P b -> P (SIf a b).
Hypothesis H6 : forall b, Forall P b -> P (SLoop b).
Fixpoint stmt_ind' (x : stmt) : P x :=
  let go := fix go l : Forall P l := match l with [] => Forall_nil P | y :: r => Forall_cons y (stmt_ind' y) (go r) end in
  match x with SInit m us => H1 m us | SDeleg => H2 | SUse m => H3 m | SRet => H4 | SIf a b => H5 a b (go a) (go b) | SLoop b => H6 b (go b) end.
End StmtInd.
Lemma mem_in m l : mem m l = true <-> In m l.
Proof. unfold mem. rewrite existsb_exists. split; [intros [x [A B]]; apply Nat.eqb_eq in B; now subst|intros H; exists m; split; [exact H|apply Nat.eqb_refl]]. Qed.
Lemma mem_erase m y l : mem m (erase y l) = mem m l && negb (y =? m).
Proof.
  unfold mem, erase. induction l as [|x l IH]; [reflexivity|]. cbn [filter existsb]. destruct (Nat.eqb_spec x y) as [->|N]; cbn [negb existsb].
  - rewrite IH. rewrite (Nat.eqb_sym y m). destruct (m =? y); cbn [negb orb]; [now rewrite !andb_false_r|reflexivity].
  - rewrite IH. destruct (Nat.eqb_spec m x) as [->|Nx]; cbn [orb]; [|reflexivity]. destruct (Nat.eqb_spec y x); [congruence|reflexivity].
Qed.
Lemma implicit_map {A} (f : nat -> A) cons members un : implicit f cons members un = map f (filter (fun m => cons m && mem m un) members).
Proof.
  unfold implicit. rewrite <- fold_left_rev_right, rev_involutive. induction members as [|m l IH]; [reflexivity|]. cbn [fold_right filter]. rewrite IH.
  destruct (cons m); [|reflexivity]. destruct (mem m un); reflexivity.
Qed.
(** The visit *)
Lemma use_unh c m s : unhandled (visit_use c m s) = unhandled s.
Proof. unfold visit_use. destruct (c && mem m (unhandled s)); reflexivity. Qed.
Lemma uses_unh c us : forall s, unhandled (fold_left (fun s u => visit_use c u s) us s) = unhandled s.
Proof. induction us as [|u us IH]; intros s; [reflexivity|]. cbn [fold_left]. now rewrite IH, use_unh. Qed.
Lemma list_unh c m l : Forall (fun x => forall s, mem m (unhandled (visit c x s)) = mem m (unhandled s) && negb (handles m x)) l ->
  forall s, mem m (unhandled (fold_left (fun s y => visit c y s) l s)) = mem m (unhandled s) && negb (existsb (handles m) l).
Proof.
  induction 1 as [|x l Hx _ IH]; intros s; cbn [fold_left existsb]; [now rewrite andb_true_r|]. rewrite IH, Hx, <- andb_assoc. f_equal. now rewrite negb_orb.
Qed.
Lemma visit_unh c m x : forall s, mem m (unhandled (visit c x s)) = mem m (unhandled s) && negb (handles m x).
Proof.
  induction x as [y us| |y| |a b Ha Hb|b Hb] using stmt_ind'; intros s; cbn [visit handles].
  - rewrite uses_unh. cbn [unhandled]. apply mem_erase.
  - cbn [unhandled negb]. now rewrite andb_false_r.
  - now rewrite use_unh, andb_true_r.
  - now rewrite andb_true_r.
  - rewrite (list_unh _ _ _ Hb), (list_unh _ _ _ Ha), <- andb_assoc. f_equal. now rewrite negb_orb.
  - now apply list_unh.
Qed.
Lemma all_unh c m l s : mem m (unhandled (visit_all c l s)) = mem m (unhandled s) && negb (existsb (handles m) l).
Proof. apply list_unh. apply Forall_forall. intros x _. apply visit_unh. Qed.
Lemma use_mono c u s m : In m (used s) -> In m (used (visit_use c u s)).
Proof. unfold visit_use. destruct (c && mem u (unhandled s)); cbn [used]; [now right|auto]. Qed.
Lemma uses_mono c us : forall s m, In m (used s) -> In m (used (fold_left (fun s u => visit_use c u s) us s)).
Proof. induction us as [|u us IH]; intros s m H; [exact H|]. cbn [fold_left]. apply IH. now apply use_mono. Qed.
Lemma list_mono c m l : Forall (fun x => forall s, In m (used s) -> In m (used (visit c x s))) l -> forall s, In m (used s) -> In m (used (fold_left (fun s y => visit c y s) l s)).
Proof. induction 1 as [|x l Hx _ IH]; intros s H; [exact H|]. cbn [fold_left]. apply IH. now apply Hx. Qed.
Lemma visit_mono c m x : forall s, In m (used s) -> In m (used (visit c x s)).
Proof.
  induction x as [y us| |y| |a b Ha Hb|b Hb] using stmt_ind'; intros s H; cbn [visit]; auto.
  - now apply uses_mono.
  - now apply use_mono.
  - apply list_mono; [exact Hb|]. now apply list_mono.
  - now apply list_mono.
Qed.
Lemma all_mono c m l s : In m (used s) -> In m (used (visit_all c l s)).
Proof. apply list_mono. apply Forall_forall. intros x _. apply visit_mono. Qed.
(** Executions *)
Lemma inits_app m a b : inits m (a ++ b) = inits m a + inits m b.
Proof. unfold inits. now rewrite filter_app, app_length. Qed.
Lemma inits_uses m us : inits m (map EUse us) = 0.
Proof. unfold inits. induction us; auto. Qed.
Lemma unhandled_none m : (forall x t r, run x t r -> handles m x = false -> inits m t = 0) /\ (forall l t r, runs l t r -> existsb (handles m) l = false -> inits m t = 0).
Proof.
  apply run_both; cbn [handles existsb]; auto.
  - intros y us H. rewrite inits_app, inits_uses. unfold inits. cbn [filter is_init]. rewrite H. reflexivity.
  - discriminate.
  - intros a b t r _ IH H. apply orb_false_iff in H as [H _]. auto.
  - intros a b t r _ IH H. apply orb_false_iff in H as [_ H]. auto.
  - intros b t t' r _ IH _ IH' H. rewrite inits_app, IH, IH'; auto.
  - intros x l t _ IH H. apply orb_false_iff in H as [H _]. auto.
  - intros x l t t' r _ IH _ IH' H. apply orb_false_iff in H as [H H']. rewrite inits_app, IH, IH'; auto.
Qed.
Lemma plain_handles m x : plain x = true -> handles m x = false.
Proof.
  induction x as [y us| |y| |a b Ha Hb|b Hb] using stmt_ind'; cbn [plain handles]; try discriminate; auto.
  - intros H. apply andb_true_iff in H as [A B]. apply orb_false_iff. split; apply not_true_is_false; intros E; apply existsb_exists in E as [z [I E]].
    + rewrite forallb_forall in A. rewrite Forall_forall in Ha. rewrite (Ha z I (A z I)) in E. discriminate.
    + rewrite forallb_forall in B. rewrite Forall_forall in Hb. rewrite (Hb z I (B z I)) in E. discriminate.
  - intros B. apply not_true_is_false; intros E; apply existsb_exists in E as [z [I E]].
    rewrite forallb_forall in B. rewrite Forall_forall in Hb. rewrite (Hb z I (B z I)) in E. discriminate.
Qed.
Lemma plains_handles m l : forallb plain l = true -> existsb (handles m) l = false.
Proof. intros H. apply not_true_is_false. intros E. apply existsb_exists in E as [z [I E]]. rewrite forallb_forall in H. rewrite (plain_handles m z (H z I)) in E. discriminate. Qed.
Lemma plains_times m l : forallb plain l = true -> times m l = 0.
Proof. unfold times. induction l as [|x l IH]; [reflexivity|]. cbn [forallb filter]. intros H. apply andb_true_iff in H as [A B]. destruct x; try discriminate; auto. Qed.
Lemma noret_run : (forall x t r, run x t r -> noret x = true -> r = false) /\ (forall l t r, runs l t r -> forallb noret l = true -> r = false).
Proof.
  apply run_both; cbn [noret forallb]; auto.
  - intros a b t r _ IH H. apply andb_true_iff in H as [H _]. auto.
  - intros a b t r _ IH H. apply andb_true_iff in H as [_ H]. auto.
  - intros x l t _ IH H. apply andb_true_iff in H as [H _]. auto.
  - intros x l t t' r _ IH _ IH' H. apply andb_true_iff in H as [_ H]. auto.
Qed.
Lemma plains_top l : forallb plain l = true -> top l = true.
Proof. destruct l as [|x l]; [reflexivity|]. cbn [forallb top]. intros H. apply andb_true_iff in H as [A B]. rewrite A, B. destruct x; try discriminate; rewrite orb_true_r; reflexivity. Qed.
Lemma top_cons x l : top (x :: l) = true -> (exists m us, x = SInit m us) \/ x = SDeleg \/ (plain x = true /\ (noret x = true \/ forallb plain l = true)).
Proof.
  destruct x as [m us| |m| |a b|b]; cbn [top]; intros H; [left; eauto|right; left; reflexivity| | | |]; right; right; apply andb_true_iff in H as [A B]; (split; [exact A|]); apply orb_true_iff in B as [B|B]; auto; apply andb_true_iff in B as [B _]; auto.
Qed.
Lemma top_rest x l : top (x :: l) = true -> top l = true.
Proof.
  destruct x as [m us| |m| |a b|b]; cbn [top]; intros H; auto; apply andb_true_iff in H as [_ H]; apply orb_true_iff in H as [H|H]; try (apply andb_true_iff in H as [_ H]; exact H); now apply plains_top.
Qed.
Definition hit (m : nat) (x : stmt) : bool := match x with SInit y _ => y =? m | SDeleg => true | _ => false end.
Lemma times_cons m x l : times m (x :: l) = (if hit m x then 1 else 0) + times m l.
Proof. unfold times. cbn [filter]. unfold hit. destruct x as [y us| |y| |a b|b]; try reflexivity. destruct (y =? m); reflexivity. Qed.
Lemma hit_plain m x : plain x = true -> hit m x = false.
Proof. destruct x; cbn [plain hit]; auto; discriminate. Qed.
Lemma run_hit m x t r : (exists y us, x = SInit y us) \/ x = SDeleg \/ plain x = true -> run x t r -> inits m t = if hit m x then 1 else 0.
Proof.
  intros [[y [us ->]]|[->|P]] R.
  - inversion R; subst. rewrite inits_app, inits_uses. unfold inits. cbn [filter is_init hit]. destruct (y =? m); reflexivity.
  - inversion R; subst. reflexivity.
  - rewrite (hit_plain m x P). eapply (proj1 (unhandled_none m)); eauto. now apply plain_handles.
Qed.
Lemma top_inits m l : forall t r, top l = true -> runs l t r -> inits m t = times m l.
Proof.
  induction l as [|x l IH]; intros t r T R.
  - inversion R; subst. reflexivity.
  - rewrite times_cons. pose proof (top_cons _ _ T) as C. inversion R; subst.
    + rewrite (run_hit m x t true) by (destruct C as [C|[C|[C _]]]; auto).
      assert (Z : times m l = 0).
      { destruct C as [[y [us ->]]|[->|[P [N|N]]]]; [inversion H3|inversion H3| |now apply plains_times].
        pose proof (proj1 noret_run _ _ _ H3 N). discriminate. }
      rewrite Z. lia.
    + rewrite inits_app, (run_hit m x t0 false) by (destruct C as [C|[C|[C _]]]; auto). f_equal. eapply IH; [|eauto]. now apply top_rest in T.
Qed.
Lemma top_handles m l : top l = true -> existsb (handles m) l = (0 <? times m l).
Proof.
  induction l as [|x l IH]; intros T; [reflexivity|]. rewrite times_cons. cbn [existsb]. rewrite (IH (top_rest _ _ T)).
  destruct (top_cons _ _ T) as [[y [us ->]]|[->|[P _]]]; cbn [handles hit].
  - destruct (y =? m); reflexivity.
  - reflexivity.
  - rewrite (plain_handles m x P), (hit_plain m x P). reflexivity.
Qed.
Lemma plain_used m : (forall x t r, run x t r -> plain x = true -> In (EUse m) t -> forall s, mem m (unhandled s) = true -> In m (used (visit true x s))) /\
  (forall l t r, runs l t r -> forallb plain l = true -> In (EUse m) t -> forall s, mem m (unhandled s) = true -> In m (used (visit_all true l s))).
Proof.
  apply run_both; cbn [plain forallb visit]; try discriminate; try contradiction.
  - intros y _ [E|[]] s H. injection E as ->. unfold visit_use. rewrite H. now left.
  - intros a b t r _ IH H I s M. apply andb_true_iff in H as [H1 H2]. apply all_mono. now apply IH.
  - intros a b t r _ IH H I s M. apply andb_true_iff in H as [H1 H2]. apply IH; auto. change (mem m (unhandled (visit_all true a s)) = true). now rewrite all_unh, M, plains_handles.
  - intros b t _ IH H I s M. now apply IH.
  - intros b t t' r _ IH _ IH' H I s M. apply in_app_iff in I as [I|I]; [now apply IH|now apply IH'].
  - intros x l t _ IH H I s M. apply andb_true_iff in H as [H1 H2]. change (In m (used (visit_all true l (visit true x s)))). apply all_mono. now apply IH.
  - intros x l t t' r _ IH _ IH' H I s M. apply andb_true_iff in H as [H1 H2]. change (In m (used (visit_all true l (visit true x s)))). apply in_app_iff in I as [I|I].
    + apply all_mono. now apply IH.
    + apply IH'; auto. now rewrite visit_unh, M, plain_handles.
Qed.
Lemma uses_used us : forall s m, In m us -> mem m (unhandled s) = true -> In m (used (fold_left (fun s u => visit_use true u s) us s)).
Proof.
  induction us as [|u us IH]; intros s m I M; [contradiction|]. cbn [fold_left]. destruct I as [->|I].
  - apply uses_mono. unfold visit_use. rewrite M. now left.
  - apply IH; auto. now rewrite use_unh.
Qed.
Lemma split_app {A} (x : A) : forall p q a b, p ++ q = a ++ x :: b -> (In x p /\ exists c, p = a ++ x :: c) \/ (exists a', a = p ++ a' /\ q = a' ++ x :: b).
Proof.
  induction p as [|y p IH]; intros q a b E; [right; exists a; auto|]. destruct a as [|z a]; cbn [app] in E; injection E as -> E.
  - left. split; [now left|]. now exists p.
  - destruct (IH _ _ _ E) as [[I [c ->]]|[a' [-> ->]]].
    + left. split; [now right|]. now exists c.
    + right. exists a'. auto.
Qed.
Lemma top_used m l : forall t r s a b, top l = true -> forallb clean l = true -> runs l t r -> mem m (unhandled s) = true -> t = a ++ EUse m :: b -> In m (used (visit_all true l s)) \/ 0 < inits m a.
Proof.
  induction l as [|x l IH]; intros t r s a b T Cl R M E.
  - inversion R; subst. destruct a; discriminate.
  - pose proof (top_cons _ _ T) as C. cbn [forallb] in Cl. apply andb_true_iff in Cl as [Cx Cl]. change (visit_all true (x :: l) s) with (visit_all true l (visit true x s)).
    inversion R as [|x0 l0 t0 Hr|x0 l0 t0 t' r0 Hx0 Hl]; subst.
    + rename Hr into H3. destruct C as [[y [us ->]]|[->|[P _]]]; [inversion H3|inversion H3|]. left. apply all_mono. eapply (proj1 (plain_used m)); eauto. apply in_app_iff. right. now left.
    + rename Hx0 into H2. assert (Et : t0 ++ t' = a ++ EUse m :: b) by (now symmetry || assumption). destruct (split_app _ _ _ _ _ Et) as [[I [c Ec]]|[a' [-> E']]].
      * clear Ec. destruct C as [[y [us ->]]|[->|[P _]]].
        { inversion H2; subst. apply in_app_iff in I as [I|[I|[]]]; [|discriminate]. apply in_map_iff in I as [u [Eu I]]. injection Eu as ->.
          left. apply all_mono. cbn [visit]. apply uses_used; [exact I|]. cbn [unhandled]. rewrite mem_erase, M. cbn [clean] in Cx. apply negb_true_iff in Cx.
          destruct (Nat.eqb_spec y m) as [->|N]; [|reflexivity]. apply mem_in in I. unfold mem in I. congruence. }
        { inversion H2; subst. destruct I as [I|[]]. discriminate. }
        left. apply all_mono. eapply (proj1 (plain_used m)); eauto.
      * rewrite inits_app. rewrite (run_hit m x t0 false) by (destruct C as [C|[C|[C _]]]; auto). destruct (hit m x) eqn:Hx; [right; lia|].
        assert (M' : mem m (unhandled (visit true x s)) = true).
        { rewrite visit_unh, M. destruct C as [[y [us ->]]|[->|[P _]]]; [cbn [handles hit] in *; now rewrite Hx|discriminate|now rewrite plain_handles]. }
        destruct (IH t' r (visit true x s) a' b (top_rest _ _ T) Cl Hl M' E') as [U|U]; [now left|right; lia].
Qed.
(** Constructors *)
Lemma runs_front L body t r : runs (map (fun m => SInit m []) L ++ body) t r <-> exists t', t = map EInit L ++ t' /\ runs body t' r.
Proof.
  revert t. induction L as [|m L IH]; intros t; cbn [map app].
  - split; [eauto|]. intros [t' [-> H]]. exact H.
  - split.
    + intros H. inversion H as [|x0 l0 t0 Hr|x0 l0 t0 t' r0 Hx Hl]; subst; [inversion Hr|]. inversion Hx; subst. apply IH in Hl as [t2 [-> R]]. exists t2. auto.
    + intros [t' [-> R]]. apply (runs_cons (SInit m []) _ [EInit m]); [apply (run_init m [])|]. apply IH. eauto.
Qed.
Definition front (cons : nat -> bool) (members : list nat) (body : list stmt) : list nat := filter (fun m => cons m && negb (existsb (handles m) body)) members.
Lemma front_eq c cons members body : filter (fun m => cons m && mem m (unhandled (visited c members body))) members = front cons members body.
Proof.
  unfold front. apply filter_ext_in. intros m I. unfold visited. rewrite all_unh. cbn [unhandled]. apply mem_in in I. now rewrite I.
Qed.
Theorem implicit_first cons members body body' t r : constructor cons members body = Some body' -> runs body' t r -> exists t', t = map EInit (front cons members body) ++ t' /\ runs body t' r.
Proof.
  unfold constructor. destruct (rejected members body); [discriminate|]. intros [= <-] R. rewrite implicit_map, front_eq in R. now apply runs_front.
Qed.
Lemma inits_map m L : NoDup L -> inits m (map EInit L) = if mem m L then 1 else 0.
Proof.
  unfold inits, mem. induction 1 as [|x L N _ IH]; [reflexivity|]. cbn [map filter is_init existsb]. rewrite (Nat.eqb_sym m x). destruct (Nat.eqb_spec x m) as [->|Ne]; cbn [orb length]; [|exact IH].
  destruct (existsb (Nat.eqb m) L) eqn:E; [apply mem_in in E; contradiction|]. now rewrite IH.
Qed.
Lemma mem_front cons members body m : In m members -> cons m = true -> mem m (front cons members body) = negb (existsb (handles m) body).
Proof.
  intros I C. destruct (existsb (handles m) body) eqn:E; cbn [negb].
  - apply not_true_is_false. intros H. apply mem_in in H. apply filter_In in H as [_ H]. rewrite C, E in H. discriminate.
  - apply mem_in. apply filter_In. split; [exact I|]. now rewrite C, E.
Qed.
Lemma front_nodup cons members body : NoDup members -> NoDup (front cons members body).
Proof. apply NoDup_filter. Qed.
Theorem implicit_once cons members body body' t r m : constructor cons members body = Some body' -> NoDup members -> In m members -> cons m = true -> existsb (handles m) body = false -> runs body' t r ->
  inits m t = 1 /\ before_use m t.
Proof.
  intros C ND I Cm Hh R. destruct (implicit_first _ _ _ _ _ _ C R) as [t' [-> R']].
  assert (F : inits m (map EInit (front cons members body)) = 1) by now rewrite (inits_map _ _ (front_nodup cons members body ND)), (mem_front _ _ _ _ I Cm), Hh.
  split; [rewrite inits_app, F, (proj2 (unhandled_none m) _ _ _ R' Hh); reflexivity|].
  intros a b E. destruct (split_app _ _ _ _ _ E) as [[In1 _]|[a' [-> _]]].
  - apply in_map_iff in In1 as [z [Ez _]]. discriminate.
  - rewrite inits_app. lia.
Qed.
Theorem explicit_once cons members body body' t r m : constructor cons members body = Some body' -> NoDup members -> In m members -> cons m = true -> top body = true -> forallb clean body = true -> times m body <= 1 -> runs body' t r ->
  inits m t = 1 /\ before_use m t.
Proof.
  intros C ND I Cm T Cl Ti R. destruct (existsb (handles m) body) eqn:Hh; [|eapply implicit_once; eauto].
  destruct (implicit_first _ _ _ _ _ _ C R) as [t' [-> R']].
  assert (F : inits m (map EInit (front cons members body)) = 0) by now rewrite (inits_map _ _ (front_nodup cons members body ND)), (mem_front _ _ _ _ I Cm), Hh.
  split.
  - rewrite inits_app, F, (top_inits _ _ _ _ T R'). rewrite (top_handles m body T) in Hh. apply Nat.ltb_lt in Hh. lia.
  - intros a b E. destruct (split_app _ _ _ _ _ E) as [[In1 _]|[a' [-> E']]].
    { apply in_map_iff in In1 as [z [Ez _]]. discriminate. }
    rewrite inits_app. assert (M : mem m (unhandled (St members [])) = true) by now apply mem_in.
    destruct (top_used m body t' r (St members []) a' b T Cl R' M E') as [U|U]; [|lia]. exfalso.
    unfold constructor in C. destruct (rejected members body) eqn:Rj; [discriminate|]. unfold rejected in Rj.
    assert (X : existsb (fun m => negb (mem m (unhandled (visited true members body)))) (used (visited true members body)) = true).
    { apply existsb_exists. exists m. split; [exact U|]. unfold visited. rewrite all_unh, Hh. now rewrite andb_false_r. }
    cbv zeta in Rj. congruence.
Qed.
(** Destructors: the members of destructor are destroyed after the body, the last first *)
Theorem destructor_members cons intr members body : destructor cons intr members body = front (fun m => cons m && negb (intr m)) members body.
Proof. unfold destructor. now rewrite implicit_map, map_id, (front_eq false). Qed.
Lemma inits_rev m L : inits m (map EInit (rev L)) = inits m (map EInit L).
Proof. unfold inits. rewrite map_rev. induction (map EInit L) as [|x l IH]; [reflexivity|]. cbn [rev]. rewrite filter_app, app_length, IH. cbn [filter]. destruct (is_init m x); cbn [length]; lia. Qed.
Theorem destroyed_once cons intr members body t r m : NoDup members -> In m members -> cons m = true -> intr m = false -> (existsb (handles m) body = false \/ top body = true /\ times m body <= 1) -> runs body t r ->
  inits m (t ++ map EInit (rev (destructor cons intr members body))) = 1.
Proof.
  intros ND I Cm Im H R. rewrite inits_app, inits_rev, destructor_members.
  assert (Cm' : (fun m => cons m && negb (intr m)) m = true) by now rewrite Cm, Im.
  rewrite (inits_map _ _ (front_nodup _ members body ND)), (mem_front _ _ _ _ I Cm').
  destruct H as [Hh|[T Ti]].
  - rewrite Hh, (proj2 (unhandled_none m) _ _ _ R Hh). reflexivity.
  - rewrite (top_inits _ _ _ _ T R), (top_handles m body T). destruct (times m body) as [|[|]]; cbn; lia.
Qed.
