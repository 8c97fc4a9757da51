From Coq Require Import ZArith List Bool Arith Lia ZifyBool.
From Verif.LevelExit Require Import Model Spec.
Import ListNotations.
Local Open Scope nat_scope.
(** labels of a block *)
Definition tops (cs : list code) : list nat := flat_map (fun c => match c with CLab l => [l] | _ => [] end) cs.
Definition not_lab (c : code) : Prop := match c with CLab _ => False | _ => True end.
Lemma tops_app a b : tops (a ++ b) = tops a ++ tops b.
Proof. apply flat_map_app. Qed.
Lemma after_none l cs : ~ In l (tops cs) -> after l cs = None.
Proof. induction cs as [|c cs IH]; cbn [after tops flat_map]; intros H; [reflexivity|]. rewrite in_app_iff in H. fold (tops cs) in H. destruct c; cbn [In app] in H; try (apply IH; tauto). destruct (Nat.eqb_spec l l0); [subst; tauto|apply IH; tauto]. Qed.
Lemma after_app l a b : ~ In l (tops a) -> after l (a ++ b) = after l b.
Proof. induction a as [|c a IH]; cbn [after tops flat_map app]; intros H; [reflexivity|]. rewrite in_app_iff in H. fold (tops a) in H. destruct c; cbn [In app] in H; try (apply IH; tauto). destruct (Nat.eqb_spec l l0); [subst; tauto|apply IH; tauto]. Qed.
Lemma after_here l a b : ~ In l (tops a) -> after l (a ++ CLab l :: b) = Some b.
Proof. intros H. rewrite after_app by auto. cbn [after]. rewrite Nat.eqb_refl. reflexivity. Qed.
Lemma used_in l s : is_used l s = true <-> In l (used s).
Proof. unfold is_used. rewrite existsb_exists. split; [intros (x & A & E); apply Nat.eqb_eq in E; subst; auto|intros H; exists l; rewrite Nat.eqb_refl; auto]. Qed.
(** induction over statements *)
Lemma stmt_induction (P : stmt -> Prop) : (forall n, P (Act n)) -> (forall b, P (Br b)) -> (forall ls kids, Forall P kids -> P (Block ls kids)) ->
  (forall ls c t e, P t -> (forall y, e = Some y -> P y) -> P (If ls c t e)) -> (forall ls isdo c inc b e, P b -> (forall y, e = Some y -> P y) -> P (Loop ls isdo c inc b e)) ->
  (forall ls c cases, Forall (fun z => Forall P (snd z)) cases -> P (Switch ls c cases)) -> forall x, P x.
Proof.
  intros H1 H2 H3 H4 H5 H6. fix IH 1. intros [n|b|ls kids|ls c t e|ls isdo c inc b e|ls c cases]; [apply H1|apply H2|apply H3|apply H4|apply H5|apply H6].
  - induction kids as [|y kids IHk]; constructor; [apply IH|exact IHk].
  - apply IH.
  - destruct e as [y|]; intros y' Q; [injection Q as <-; apply IH|discriminate].
  - apply IH.
  - destruct e as [y|]; intros y' Q; [injection Q as <-; apply IH|discriminate].
  - induction cases as [|[v b] cases IHc]; constructor; [|exact IHc]. cbn [snd]. clear - IH. induction b as [|y b IHb]; constructor; [apply IH|exact IHb].
Qed.
(** what a translation does to the state of the pass *)
Definition grows (s s' : T) : Prop := nxt s <= nxt s' /\ incl (used s) (used s').
Lemma grows_refl s : grows s s. Proof. split; [lia|apply incl_refl]. Qed.
Lemma grows_trans a b c : grows a b -> grows b c -> grows a c. Proof. intros [A B] [C D]. split; [lia|eapply incl_tran; eauto]. Qed.
Definition fine (s s' : T) : Prop := grows s s' /\ (brk s' = brk s \/ brk s' = None \/ exists l, brk s' = Some l /\ nxt s <= l < nxt s').
Definition stat (x : stmt) : Prop := forall k s c s', tr x k s = Some (c, s') -> fine s s' /\ not_lab c.
Lemma block_stat kids : Forall stat kids -> forall k s cs s', fix_block (fun y => tr y k) kids s = Some (cs, s') -> grows s s' /\ (brk s' = None \/ kids = [] /\ brk s' = brk s) /\ (forall l, In l (tops cs) -> brk s = None -> nxt s <= l < nxt s').
Proof.
  induction 1 as [|x kids Hx F IH]; intros k s cs s' E; cbn [fix_block] in E.
  - injection E as <- <-. split; [apply grows_refl|]. split; [auto|]. intros l [].
  - destruct (tr x k s) as [[c s1]|] eqn:E1; [|discriminate]. destruct (fix_block (fun y => tr y k) kids (take s1)) as [[cs2 s2]|] eqn:E2; [|discriminate]. injection E as <- <-.
    destruct (Hx _ _ _ _ E1) as [[G1 B1] L1]. destruct (IH _ _ _ _ E2) as (G2 & B2 & T2). assert (G3 : grows s1 s2) by (destruct G2; split; auto). split; [eapply grows_trans; eauto|]. split; [destruct B2 as [?|[_ ?]]; auto|].
    intros l Hl Hb. change (tops (c :: opt_lab (brk s1) ++ cs2)) with (tops ([c] ++ opt_lab (brk s1) ++ cs2)) in Hl. rewrite !tops_app, !in_app_iff in Hl. destruct G1 as [G1 _], G2 as [G2 _]. cbn [take nxt] in *. destruct Hl as [Hl|[Hl|Hl]].
    + destruct c; cbn in Hl, L1; tauto.
    + destruct (brk s1) as [l1|] eqn:Q; cbn in Hl; [|tauto]. destruct Hl as [<-|[]]. destruct B1 as [B1|[B1|(l2 & B1 & B3)]]; [congruence|congruence|]. injection B1 as <-. lia.
    + specialize (T2 l Hl eq_refl). cbn [take nxt] in T2. lia.
Qed.
Lemma cases_stat cases : Forall (fun z => Forall stat (snd z)) cases -> forall sw k s cs s', fix_cases (fun k' kids => fix_block (fun y => tr y k') kids) cases sw k s = Some (cs, s') ->
  grows s s' /\ (brk s = None -> brk s' = None) /\ map fst cs = map fst cases /\ (forall l, In l (tops (concat (map snd cs))) -> Some l = two sw \/ nxt s <= l < nxt s').
Proof.
  induction 1 as [|[v b] cases Hx F IH]; intros sw k s cs s' E; cbn [fix_cases] in E.
  - injection E as <- <-. split; [apply grows_refl|]. split; [auto|]. split; [auto|]. intros l [].
  - cbn [snd] in Hx. set (sw' := match v with None => En (kd sw) (lbs sw) (one sw) (two sw) false | Some _ => sw end) in *.
    assert (T : two sw' = two sw) by (unfold sw'; destruct v; reflexivity).
    destruct (fix_block _ b (more s)) as [[cs1 s1]|] eqn:E1; [|discriminate]. cbv zeta in E.
    destruct (fix_cases _ cases sw' k s1) as [[cs2 s2]|] eqn:E2; [|discriminate]. injection E as <- <-.
    destruct (block_stat b Hx _ _ _ _ E1) as (G1 & B1 & _). destruct (IH _ _ _ _ _ E2) as (G2 & B2 & M2 & T2). cbn [more] in *.
    assert (G0 : grows s s1) by (destruct G1; split; cbn [more nxt used] in *; [lia|auto]).
    split; [eapply grows_trans; eauto|]. split; [intros Q; apply B2; destruct B1 as [B1|[_ B1]]; [auto|]; rewrite B1; exact Q|]. split; [cbn [map fst]; f_equal; auto|].
    intros l Hl. cbn [map snd concat] in Hl. rewrite tops_app, in_app_iff in Hl. destruct G1 as [G1 _], G2 as [G2 _], G0 as [G0 _]. cbn [more nxt] in *. destruct Hl as [Hl|Hl].
    + assert (Q : Some l = two sw \/ l = nxt s).
      { rewrite <- T. clear - Hl. destruct v as [v|]; [|destruct (two sw') as [fd|]; [destruct (is_used fd s1)|]]; destruct (is_used (nxt s) s1); cbn in Hl; intuition congruence. }
      destruct Q as [Q|Q]; [auto|subst; right; lia].
    + destruct (T2 l Hl) as [Q|Q]; [rewrite T in Q; auto|right; lia].
Qed.
Lemma more_grows s : grows s (more s). Proof. split; [cbn; lia|apply incl_refl]. Qed.
Lemma opt_stat e k s e' s' : (forall y, e = Some y -> stat y) -> opt_tr (fun y => tr y k) e s = Some (e', s') -> fine s s'.
Proof.
  intros H E. destruct e as [y|]; cbn [opt_tr] in E; [|injection E as <- <-; split; [apply grows_refl|auto]]. destruct (tr y k s) as [[c s1]|] eqn:Q; [|discriminate]. injection E as <- <-. eapply H; eauto.
Qed.
Lemma fine_none s s' : grows s s' -> brk s' = None -> fine s s'. Proof. split; auto. Qed.
Lemma tr_stat x : stat x.
Proof.
  induction x as [n|b|ls kids IH|ls c t e IHt IHe|ls isdo c inc b e IHb IHe|ls c cases IH] using stmt_induction; intros k s c0 s' E; cbn [tr] in E.
  - injection E as <- <-. split; [split; [apply grows_refl|auto]|exact I].
  - destruct (target k b); [|discriminate]. injection E as <- <-. split; [split; [split; [cbn; lia|cbn; intros q Q; right; auto]|auto]|exact I].
  - destruct ls as [|l0 ls].
    + destruct (fix_block _ kids s) as [[cs s1]|] eqn:Q; [|discriminate]. injection E as <- <-. destruct (block_stat kids IH _ _ _ _ Q) as (G & B & _). split; [|exact I]. split; [auto|]. destruct B as [B|[_ B]]; auto.
    + destruct (fix_block _ kids (more s)) as [[cs s1]|] eqn:Q; [|discriminate]. injection E as <- <-. destruct (block_stat kids IH _ _ _ _ Q) as ([G1 G2] & _ & _). split; [|exact I]. cbn [more nxt used] in *. split; [split; cbn [set_brk nxt used]; [lia|auto]|]. right. right. exists (nxt s). cbn [set_brk brk nxt]. split; [auto|lia].
  - destruct ls as [|l0 ls].
    + destruct (tr t k s) as [[t' s1]|] eqn:Q1; [|discriminate]. destruct (opt_tr _ e s1) as [[e' s2]|] eqn:Q2; [|discriminate]. injection E as <- <-. destruct (IHt _ _ _ _ Q1) as [[G1 B1] _]. destruct (opt_stat _ _ _ _ _ IHe Q2) as [G2 B2]. split; [|exact I]. split; [eapply grows_trans; eauto|].
      destruct G1 as [G1 _], G2 as [G2 _]. destruct B2 as [B2|[B2|(l & B2 & B3)]]; [rewrite B2; destruct B1 as [B1|[B1|(l & B1 & B3)]]; auto; right; right; exists l; split; [auto|lia]|auto|right; right; exists l; split; [auto|lia]].
    + destruct (tr t _ (more s)) as [[t' s1]|] eqn:Q1; [|discriminate]. destruct (opt_tr _ e s1) as [[e' s2]|] eqn:Q2; [|discriminate]. injection E as <- <-. destruct (IHt _ _ _ _ Q1) as [[G1 B1] _]. destruct (opt_stat _ _ _ _ _ IHe Q2) as [G2 B2]. split; [|exact I]. assert (G : grows s s2) by (eapply grows_trans; [apply more_grows|]; eapply grows_trans; eauto). split; [exact G|]. right. right. exists (nxt s). cbn [set_brk brk nxt]. split; [auto|]. destruct G1, G2. cbn [more nxt] in *. lia.
  - destruct (tr b _ (more (more s))) as [[b' s1]|] eqn:Q1; [|discriminate]. cbv zeta in E. destruct (opt_tr _ e (take s1)) as [[e' s2]|] eqn:Q2; [|discriminate]. injection E as <- <-. destruct (IHb _ _ _ _ Q1) as [[G1 B1] _]. destruct (opt_stat _ _ _ _ _ IHe Q2) as [G2 B2]. split; [|exact I].
    assert (G : grows s s2) by (eapply grows_trans; [apply more_grows|]; eapply grows_trans; [apply more_grows|]; eapply grows_trans; [exact G1|destruct G2; split; auto]). split; [exact G|]. destruct G1 as [G1 _], G2 as [G2 _]. cbn [more nxt take set_brk brk] in *.
    destruct (is_used (nxt s) s1); [right; right; exists (nxt s); split; [auto|lia]|]. destruct B1 as [B1|[B1|(l & B1 & B3)]]; auto. right. right. exists l. split; [auto|lia].
  - destruct (fix_cases _ cases _ k (more (more s))) as [[cs s1]|] eqn:Q; [|discriminate]. injection E as <- <-. split; [|exact I]. destruct (cases_stat cases IH _ _ _ _ _ Q) as (G & B & _). assert (G' : grows s s1) by (eapply grows_trans; [apply more_grows|]; eapply grows_trans; [apply more_grows|]; exact G). split; [exact G'|].
    clear - IH Q. set (sw := En _ _ _ _ _) in Q. clearbody sw. cut (brk s1 = brk (more (more s)) \/ brk s1 = None); [cbn [more brk]; tauto|]. revert Q. generalize (more (more s)). clear s. intros s Q. revert sw s cs s1 Q. induction IH as [|[v b] cases Hx F IHc]; intros sw s cs s1 Q; cbn [fix_cases] in Q; [injection Q as <- <-; auto|].
    destruct (fix_block _ b (more s)) as [[cs1 s2]|] eqn:E1; [|discriminate]. cbv zeta in Q. match type of Q with match ?X with _ => _ end = _ => destruct X as [[cs2 s3]|] eqn:E2; [|discriminate] end. injection Q as <- <-. destruct (block_stat b Hx _ _ _ _ E1) as (_ & B1 & _). destruct (IHc _ _ _ _ E2) as [B2|B2]; [rewrite B2|auto]. destruct B1 as [B1|[_ B1]]; auto.
Qed.
Lemma all_stat kids : Forall stat kids. Proof. apply Forall_forall. intros x _. apply tr_stat. Qed.
Lemma all_stat2 (cases : list (option Z * list stmt)) : Forall (fun z => Forall stat (snd z)) cases. Proof. apply Forall_forall. intros x _. apply all_stat. Qed.
Lemma plain_brk x k s c s' : plain x = true -> tr x k s = Some (c, s') -> brk s = None -> brk s' = None.
Proof.
  intros P E B. destruct x as [| |[|] kids| | |]; try discriminate. cbn [tr] in E. destruct (fix_block _ kids s) as [[cs s1]|] eqn:Q; [|discriminate]. injection E as <- <-. destruct (block_stat kids (all_stat _) _ _ _ _ Q) as (_ & [H|[_ H]] & _); congruence.
Qed.
Lemma tr_brk x k s c s' : tr x k s = Some (c, s') -> brk s = None -> forall l, brk s' = Some l -> nxt s <= l < nxt s'.
Proof. intros E B l L. destruct (tr_stat x _ _ _ _ E) as [[_ H] _]. destruct H as [H|[H|(l2 & H & R)]]; [congruence|congruence|]. rewrite H in L. injection L as <-. auto. Qed.
(** entries and targets *)
Definition below (k : list entry) (m : nat) : Prop := Forall (fun e => one e < m /\ forall l, two e = Some l -> l < m) k.
Lemma below_mono k m m' : below k m -> m <= m' -> below k m'.
Proof. intros H L. unfold below in *. rewrite Forall_forall in *. intros e E. destruct (H e E) as [A B]. split; [lia|]. intros l Q. specialize (B l Q). lia. Qed.
Lemma target_below k m b l : below k m -> target k b = Some l -> l < m.
Proof.
  unfold below. rewrite Forall_forall. intros H E.
  assert (G : forall p e, find p k = Some e -> one e < m /\ forall l, two e = Some l -> l < m) by (intros p e Q; apply find_some in Q; apply H; tauto).
  destruct b as [[lb|]|[lb|]| |]; cbn [target] in E.
  - destruct (find _ k) as [e|] eqn:Q; [|discriminate]. destruct (is_case e); [discriminate|]. injection E as <-. apply (proj1 (G _ _ Q)).
  - destruct (find _ k) as [e|] eqn:Q; [|discriminate]. injection E as <-. apply (proj1 (G _ _ Q)).
  - destruct (find _ k) as [e|] eqn:Q; [|discriminate]. destruct (is_loop e); [|discriminate]. apply (proj2 (G _ _ Q)). auto.
  - destruct (find _ k) as [e|] eqn:Q; [|discriminate]. apply (proj2 (G _ _ Q)). auto.
  - destruct (find _ k) as [e|] eqn:Q; [|discriminate]. injection E as <-. apply (proj1 (G _ _ Q)).
  - destruct (find _ k) as [e|] eqn:Q; [|discriminate]. destruct (fdok e); [|discriminate]. apply (proj2 (G _ _ Q)). auto.
Qed.

Lemma target_block ls x k b l : target (En KBlock ls x None true :: k) b = Some l -> (exists lb, b = B (Some lb) /\ has lb ls = true /\ l = x) \/ ((forall lb, b = B (Some lb) -> has lb ls = false) /\ target k b = Some l).
Proof.
  destruct b as [[lb|]|[lb|]| |]; cbn [target find is_loop is_switch is_case kd orb lbs]; intros H; try (right; split; [intros; discriminate|exact H]).
  - destruct (has lb ls) eqn:Q; [left; exists lb; cbn in H; injection H as <-; auto|]. right. split; [intros ? W; injection W as <-; auto|exact H].
  - destruct (has lb ls) eqn:Q; [discriminate|]. right. split; [intros; discriminate|exact H].
Qed.
Lemma target_loop ls lb lc k b l : target (En KLoop ls lb (Some lc) true :: k) b = Some l -> match ends_loop ls (Ex b) with None => l = lc | Some Go => l = lb | Some (Ex b') => b' = b /\ target k b = Some l end.
Proof.
  destruct b as [[x|]|[x|]| |]; cbn [target find is_loop is_switch is_case kd orb lbs one two ends_loop option_map]; intros H; try (split; [reflexivity|exact H]); try (injection H as <-; reflexivity).
  - destruct (has x ls); cbn in H; [injection H as <-; reflexivity|split; auto].
  - destruct (has x ls); cbn in H; [injection H as <-; reflexivity|split; auto].
Qed.
Lemma target_case fl sw k b l : kd sw = KSwitch -> target (En KCase [] fl None true :: sw :: k) b = Some l ->
  match b with
  | F => l = fl
  | FD => fdok sw = true /\ two sw = Some l
  | B None => l = one sw
  | B (Some x) => if has x (lbs sw) then l = one sw else target k b = Some l
  | K _ => target k b = Some l
  end.
Proof.
  intros W. destruct sw as [kd0 ls0 l1 l2 f0]. cbn [kd] in W. subst kd0. destruct b as [[x|]|[x|]| |]; cbn [target find is_loop is_switch is_case kd orb lbs one two has existsb option_map fdok]; intros H; try congruence.
  - fold (has x ls0) in *. destruct (has x ls0); [cbn in H; congruence|exact H].
  - fold (has x ls0) in *. destruct (has x ls0); [discriminate|exact H].
  - destruct f0; [auto|discriminate].
Qed.
Lemma has_nil l : has l [] = false. Proof. reflexivity. Qed.
Lemma leaves_nil r : leaves [] r = r. Proof. destruct r as [|[[x|]|x| |]]; reflexivity. Qed.
Section Sim.
Context {st : Type}.
Variable acts : nat -> st -> st.
Variable tests : nat -> st -> bool.
Variable vals : nat -> st -> Z.
Notation run := (run acts tests vals).
Notation srun := (srun acts tests vals).
(** one statement of C *)
Definition one_step (n : nat) (c : code) (x : st) : option (out * st) :=
  match c with
  | CAct a => Some (N, acts a x)
  | CGoto l => Some (Goto l, x)
  | CLab _ => Some (N, x)
  | CBlk cs => run n cs cs x
  | CIf c t e => if tests c x then run n [t] [t] x else match e with Some e => run n [e] [e] x | None => Some (N, x) end
  | CLoop isdo c inc b e =>
      if isdo || tests c x then
        match run n [b] [b] x with
        | Some (N, x1) => run n [CLoop false c inc b e] [CLoop false c inc b e] (step_inc acts inc x1)
        | y => y
        end
      else match e with Some e => run n [e] [e] x | None => Some (N, x) end
  | CSwitch c cases => run n (concat (map snd cases)) (concat (map snd (select (vals c x) cases))) x
  end.
Lemma run_S n all c r x : run (S n) all (c :: r) x = match one_step n c x with None => None | Some (N, x1) => run n all r x1 | Some (Goto l, x1) => match after l all with Some r' => run n all r' x1 | None => Some (Goto l, x1) end end.
Proof. reflexivity. Qed.
Lemma run_mono n : forall m all cs x y, n <= m -> run n all cs x = Some y -> run m all cs x = Some y.
Proof.
  induction n as [|n IH]; intros m all cs x y L H; [discriminate|]. destruct m as [|m]; [lia|]. assert (L' : n <= m) by lia. destruct cs as [|c r]; [exact H|].
  rewrite run_S in *. assert (S1 : forall c0 x0 z, one_step n c0 x0 = Some z -> one_step m c0 x0 = Some z).
  { intros c0 x0 z Q. destruct c0 as [a|l|l|cs|b t e|isdo b inc bd e|b cases]; cbn [one_step] in *; [exact Q|exact Q|exact Q| | | |].
    - eapply IH; eauto.
    - destruct (tests b x0); [eapply IH; eauto|]. destruct e; [eapply IH; eauto|auto].
    - destruct (isdo || tests b x0); [|destruct e; [eapply IH; eauto|auto]]. destruct (run n [bd] [bd] x0) as [[o x1]|] eqn:W; [|discriminate]. rewrite (IH m _ _ _ _ L' W). destruct o; [eapply IH; eauto|auto].
    - eapply IH; eauto. }
  destruct (one_step n c x) as [[o x1]|] eqn:W; [|discriminate]. rewrite (S1 _ _ _ W). destruct o as [|l]; [eapply IH; eauto|]. destruct (after l all); [eapply IH; eauto|auto].
Qed.
Lemma step_mono n m c x y : n <= m -> one_step n c x = Some y -> one_step m c x = Some y.
Proof.
  intros L Q. destruct c as [a|l|l|cs|b t e|isdo b inc bd e|b cases]; cbn [one_step] in *; [exact Q|exact Q|exact Q| | | |].
  - eapply run_mono; eauto.
  - destruct (tests b x); [eapply run_mono; eauto|]. destruct e; [eapply run_mono; eauto|auto].
  - destruct (isdo || tests b x); [|destruct e; [eapply run_mono; eauto|auto]]. destruct (run n [bd] [bd] x) as [[o x1]|] eqn:W; [|discriminate]. rewrite (run_mono _ _ _ _ _ _ L W). destruct o; [eapply run_mono; eauto|auto].
  - eapply run_mono; eauto.
Qed.
(** a statement on its own *)
Lemma run_one n c x o x1 : not_lab c -> one_step n c x = Some (o, x1) -> run (S (S n)) [c] [c] x = Some (o, x1).
Proof.
  intros L H. rewrite run_S. rewrite (step_mono n (S n) c x _ ltac:(lia) H). destruct o as [|l]; [reflexivity|]. rewrite after_none; [reflexivity|]. destruct c; cbn; tauto.
Qed.
(** a statement in a block *)
Lemma run_go n m all c r x x1 y : one_step n c x = Some (N, x1) -> run m all r x1 = Some y -> exists m', run m' all (c :: r) x = Some y.
Proof. intros H R. exists (S (n + m)). rewrite run_S. rewrite (step_mono n (n + m) c x _ ltac:(lia) H). eapply run_mono; [|exact R]. lia. Qed.
Lemma run_jump n m all c r x x1 l r' y : one_step n c x = Some (Goto l, x1) -> after l all = Some r' -> run m all r' x1 = Some y -> exists m', run m' all (c :: r) x = Some y.
Proof. intros H A R. exists (S (n + m)). rewrite run_S. rewrite (step_mono n (n + m) c x _ ltac:(lia) H). rewrite A. eapply run_mono; [|exact R]. lia. Qed.
Lemma run_out n all c r x x1 l : one_step n c x = Some (Goto l, x1) -> after l all = None -> exists m', run m' all (c :: r) x = Some (Goto l, x1).
Proof. intros H A. exists (S n). rewrite run_S, H, A. reflexivity. Qed.
Lemma run_labs n all b r x y : run n all r x = Some y -> exists m, run m all (opt_lab b ++ r) x = Some y.
Proof. intros H. destruct b as [l|]; cbn [opt_lab app]; [|eauto]. eapply (run_go 0); [reflexivity|exact H]. Qed.
Lemma run_nil all x : run 1 all [] x = Some (N, x). Proof. reflexivity. Qed.
(** how the end of a statement and the end of its code agree *)
Definition agree (k : list entry) (b : option nat) (s' : T) (r : res) (o : out) : Prop :=
  match r with
  | Go => o = N \/ exists l, b = Some l /\ o = Goto l
  | Ex br => exists l, target k br = Some l /\ In l (used s') /\ o = Goto l
  end.
Definition Pn (n : nat) : Prop := forall y k s c s' x r x1, wf y = true -> tr y k s = Some (c, s') -> brk s = None -> below k (nxt s) -> srun n [y] x = Some (r, x1) ->
  exists m o, one_step m c x = Some (o, x1) /\ agree k (brk s') s' r o.
Definition Qn (n : nat) : Prop := forall kids k s cs s' x r x1, forallb wf kids = true -> fix_block (fun y => tr y k) kids s = Some (cs, s') -> brk s = None -> below k (nxt s) -> srun n kids x = Some (r, x1) ->
  forall pre, (forall l, In l (tops pre) -> l < nxt s /\ forall b, target k b <> Some l) -> exists m o, run m (pre ++ cs) cs x = Some (o, x1) /\ agree k None s' r o.
Definition s_one (n : nat) (k : stmt) (x : st) : option (res * st) :=
  match k with
  | Act a => Some (Go, acts a x)
  | Br b => Some (Ex b, x)
  | Block ls ks => match srun n ks x with Some (r, x1) => Some (leaves ls r, x1) | None => None end
  | If ls c t e =>
      match (if tests c x then srun n [t] x else match e with Some e => srun n [e] x | None => Some (Go, x) end) with Some (r, x1) => Some (leaves ls r, x1) | None => None end
  | Loop ls isdo c inc b e =>
      if isdo || tests c x then
        match srun n [b] x with
        | None => None
        | Some (r, x1) => match ends_loop ls r with None => srun n [Loop ls false c inc b e] (step_inc acts inc x1) | Some r' => Some (r', x1) end
        end
      else match e with Some e => srun n [e] x | None => Some (Go, x) end
  | Switch ls c cases =>
      match clauses (srun n) false (select (vals c x) cases) x with
      | Some (Ex (B None), x1) => Some (Go, x1)
      | Some (r, x1) => Some (leaves ls r, x1)
      | None => None
      end
  end.
Lemma srun_S n y rest x : srun (S n) (y :: rest) x = match s_one n y x with None => None | Some (Go, x1) => srun n rest x1 | r => r end.
Proof. reflexivity. Qed.
Definition Kn (n : nat) : Prop := forall y k s c s' x r x1, wf y = true -> tr y k s = Some (c, s') -> brk s = None -> below k (nxt s) -> s_one n y x = Some (r, x1) ->
  exists m o, one_step m c x = Some (o, x1) /\ agree k (brk s') s' r o.
Lemma K_P n : Kn n -> Pn (S n).
Proof.
  intros HK y k s c s' x r x1 W E B L H. rewrite srun_S in H. destruct (s_one n y x) as [[[|br] x2]|] eqn:Q; [| |discriminate].
  - destruct n; [discriminate|]. injection H as <- <-. eapply HK; eauto.
  - injection H as <- <-. eapply HK; eauto.
Qed.
Lemma agree_used k b s s' r o : agree k b s r o -> incl (used s) (used s') -> agree k b s' r o.
Proof. destruct r; cbn [agree]; auto. intros (l & A & U & O) I. exists l. auto. Qed.
Lemma K_Q n : Kn n -> Qn n -> Qn (S n).
Proof.
  intros HK HQ kids k s cs s' x r x1 W E B L H pre Hp. destruct kids as [|y kids].
  - cbn [fix_block] in E. injection E as <- <-. injection H as <- <-. exists 1, N. rewrite app_nil_r. split; [reflexivity|cbn [agree]; auto].
  - cbn [fix_block] in E. destruct (tr y k s) as [[c s1]|] eqn:E1; [|discriminate]. destruct (fix_block _ kids (take s1)) as [[cs2 s2]|] eqn:E2; [|discriminate]. injection E as <- <-. cbn [forallb] in W. apply andb_true_iff in W. destruct W as [W1 W2].
    destruct (tr_stat y _ _ _ _ E1) as [[[G1 U1] _] NL]. destruct (block_stat kids (all_stat _) _ _ _ _ E2) as ([G2 U2] & _ & T2). cbn [take nxt used] in *.
    assert (Lb := tr_brk _ _ _ _ _ E1 B). rewrite srun_S in H. destruct (s_one n y x) as [[[|br] x2]|] eqn:Q; [| |discriminate].
    + assert (X := HQ kids k (take s1) cs2 s2 x2 r x1 W2 E2 eq_refl (below_mono _ _ _ L G1) H (pre ++ c :: opt_lab (brk s1))). destruct X as (m & o & R & A).
      { intros l Hl. change (c :: opt_lab (brk s1)) with ([c] ++ opt_lab (brk s1)) in Hl. rewrite !tops_app, !in_app_iff in Hl. cbn [take nxt]. destruct Hl as [Hl|[Hl|Hl]].
        - destruct (Hp l Hl). split; [lia|auto].
        - destruct c; cbn in Hl, NL; tauto.
        - destruct (brk s1) as [l1|]; cbn in Hl; [|tauto]. destruct Hl as [<-|[]]. specialize (Lb l1 eq_refl). split; [lia|]. intros b Tb. pose proof (target_below _ _ _ _ L Tb). lia. }
      rewrite <- app_assoc in R. cbn [app] in R. destruct (HK y k s c s1 x Go x2 W1 E1 B L Q) as (m1 & o1 & S1 & A1). cbn [agree] in A1. destruct A1 as [->|(l & Bl & ->)].
      * destruct (run_labs m (pre ++ c :: opt_lab (brk s1) ++ cs2) (brk s1) cs2 x2 _ R) as (m2 & R2). destruct (run_go _ _ _ _ _ _ _ _ S1 R2) as (m3 & R3). exists m3, o. auto.
      * rewrite Bl in *. cbn [opt_lab app] in *. assert (AA : after l (pre ++ c :: CLab l :: cs2) = Some cs2).
        { change (pre ++ c :: CLab l :: cs2) with (pre ++ [c] ++ CLab l :: cs2). rewrite app_assoc. apply after_here. rewrite tops_app, in_app_iff. intros [Z|Z]; [destruct (Hp l Z); specialize (Lb l eq_refl); lia|destruct c; cbn in Z, NL; tauto]. }
        destruct (run_jump _ _ _ _ (CLab l :: cs2) _ _ _ _ _ S1 AA R) as (m3 & R3). exists m3, o. auto.
    + injection H as <- <-. destruct (HK y k s c s1 x (Ex br) x2 W1 E1 B L Q) as (m1 & o1 & S1 & (l & Tl & Ul & ->)). assert (Ll := target_below _ _ _ _ L Tl).
      assert (AA : after l (pre ++ c :: opt_lab (brk s1) ++ cs2) = None).
      { apply after_none. change (c :: opt_lab (brk s1) ++ cs2) with ([c] ++ opt_lab (brk s1) ++ cs2). rewrite !tops_app, !in_app_iff. intros [Z|[Z|[Z|Z]]].
        - destruct (Hp l Z) as [_ Z2]. exact (Z2 _ Tl).
        - destruct c; cbn in Z, NL; tauto.
        - destruct (brk s1) as [l1|]; cbn in Z; [|tauto]. destruct Z as [<-|[]]. specialize (Lb l1 eq_refl). lia.
        - specialize (T2 l Z eq_refl). lia. }
      destruct (run_out _ _ _ (opt_lab (brk s1) ++ cs2) _ _ _ S1 AA) as (m3 & R3). exists m3, (Goto l). split; [exact R3|]. exists l. auto.
Qed.
(** bodies that are blocks without labels *)
Lemma P_plain n (HP : Pn n) y k s c s' x r x1 : plain y = true -> wf y = true -> tr y k s = Some (c, s') -> brk s = None -> below k (nxt s) -> srun n [y] x = Some (r, x1) ->
  exists m o, run m [c] [c] x = Some (o, x1) /\ one_step m c x = Some (o, x1) /\ agree k None s' r o.
Proof.
  intros Pl W E B L H. destruct (HP _ _ _ _ _ _ _ _ W E B L H) as (m & o & S1 & A). rewrite (plain_brk _ _ _ _ _ Pl E B) in A. destruct (tr_stat y _ _ _ _ E) as [_ NL]. exists (S (S m)), o. split; [apply run_one; auto|]. split; [eapply step_mono; [|exact S1]; lia|exact A].
Qed.
Lemma agree_leaves ls l0 k s r o : agree (En KBlock ls l0 None true :: k) None s r o -> agree k (Some l0) s (leaves ls r) o.
Proof.
  destruct r as [|b]; cbn [agree]; [cbn [leaves agree]; intros [H|(l & H & _)]; [auto|discriminate]|]. intros (l & Tl & Ul & ->). destruct (target_block _ _ _ _ _ Tl) as [(lb & -> & Hb & ->)|(Hb & Tk)].
  - cbn [leaves]. rewrite Hb. cbn [agree]. right. exists l0. auto.
  - replace (leaves ls (Ex b)) with (Ex b); [cbn [agree]; exists l; auto|]. destruct b as [[x|]|x| |]; cbn [leaves]; auto. rewrite Hb by reflexivity. reflexivity.
Qed.
Lemma below_cons k m e : below k m -> one e < m -> (forall l, two e = Some l -> l < m) -> below (e :: k) m.
Proof. intros H A C. constructor; auto. Qed.
Lemma if_case n (HP : Pn n) c t e k s t' s1 e' s2 x r x1 : plain t && wf t && match e with Some e => plain e && wf e | None => true end = true -> brk s = None -> below k (nxt s) ->
  tr t k s = Some (t', s1) -> opt_tr (fun y => tr y k) e s1 = Some (e', s2) -> (if tests c x then srun n [t] x else match e with Some e => srun n [e] x | None => Some (Go, x) end) = Some (r, x1) ->
  brk s2 = None /\ exists m o, one_step m (CIf c t' e') x = Some (o, x1) /\ agree k None s2 r o.
Proof.
  intros W B L E1 E2 H. apply andb_true_iff in W. destruct W as [W We]. apply andb_true_iff in W. destruct W as [Wp Wt]. assert (B1 := plain_brk _ _ _ _ _ Wp E1 B). destruct (tr_stat t _ _ _ _ E1) as [[[G1 U1] _] _].
  assert (B2 : brk s2 = None /\ incl (used s1) (used s2)).
  { destruct e as [y|]; cbn [opt_tr] in E2; [|injection E2 as <- <-; split; [auto|apply incl_refl]]. destruct (tr y k s1) as [[c2 s3]|] eqn:Q; [|discriminate]. injection E2 as <- <-. apply andb_true_iff in We. split; [eapply plain_brk; [|exact Q|exact B1]; tauto|]. destruct (tr_stat y _ _ _ _ Q) as [[[_ U] _] _]. exact U. }
  split; [tauto|]. cbn [one_step]. destruct (tests c x).
  - destruct (P_plain n HP t k s t' s1 x r x1 Wp Wt E1 B L H) as (m & o & R & _ & A). exists m, o. split; [exact R|eapply agree_used; [exact A|tauto]].
  - destruct e as [y|]; cbn [opt_tr] in E2.
    + destruct (tr y k s1) as [[c2 s3]|] eqn:Q; [|discriminate]. injection E2 as <- <-. apply andb_true_iff in We. destruct We as [Wp2 Wy]. destruct (P_plain n HP y k s1 c2 s3 x r x1 Wp2 Wy Q B1 (below_mono _ _ _ L G1) H) as (m & o & R & _ & A). exists m, o. auto.
    + injection E2 as <- <-. injection H as <- <-. exists 0, N. split; [reflexivity|cbn [agree]; auto].
Qed.
Lemma body_go m b' x o x1 lc s1 : not_lab b' -> one_step m b' x = Some (o, x1) -> (o = N \/ o = Goto lc /\ In lc (used s1)) -> exists m', run m' [if is_used lc s1 then CBlk [b'; CLab lc] else b'] [if is_used lc s1 then CBlk [b'; CLab lc] else b'] x = Some (N, x1).
Proof.
  intros NL S1 O. destruct (is_used lc s1) eqn:U.
  - assert (R : exists m', run m' [b'; CLab lc] [b'; CLab lc] x = Some (N, x1)).
    { destruct O as [->|[-> _]].
      - exact (run_go m 2 [b'; CLab lc] b' [CLab lc] x x1 (N, x1) S1 eq_refl).
      - apply (run_jump m 1 [b'; CLab lc] b' [CLab lc] x x1 lc [] (N, x1) S1); [|reflexivity]. change [b'; CLab lc] with ([b'] ++ [CLab lc]). apply after_here. destruct b'; cbn in *; tauto. }
    destruct R as (m' & R). exists (S (S m')). apply run_one; [exact I|exact R].
  - destruct O as [->|[-> Hu]]; [|apply used_in in Hu; congruence]. exists (S (S m)). apply run_one; auto.
Qed.
Lemma body_out m b' x l x1 lc s1 : not_lab b' -> one_step m b' x = Some (Goto l, x1) -> l <> lc -> exists m', run m' [if is_used lc s1 then CBlk [b'; CLab lc] else b'] [if is_used lc s1 then CBlk [b'; CLab lc] else b'] x = Some (Goto l, x1).
Proof.
  intros NL S1 O. destruct (is_used lc s1) eqn:U; [|exists (S (S m)); apply run_one; auto].
  destruct (run_out m [b'; CLab lc] b' [CLab lc] x x1 l S1) as (m' & R); [apply after_none; destruct b'; cbn in *; intuition congruence|]. exists (S (S m')). apply run_one; [exact I|exact R].
Qed.
Lemma loop_case n (HP : Pn n) ls isdo c inc b e k s cd s' x r x1 : wf (Loop ls isdo c inc b e) = true -> tr (Loop ls isdo c inc b e) k s = Some (cd, s') -> brk s = None -> below k (nxt s) -> s_one n (Loop ls isdo c inc b e) x = Some (r, x1) ->
  exists m o, one_step m cd x = Some (o, x1) /\ agree k (brk s') s' r o.
Proof.
  intros W E B L H. assert (E0 := E). cbn [tr] in E. destruct (tr b _ (more (more s))) as [[b' s1]|] eqn:E1; [|discriminate]. destruct (opt_tr _ e (take s1)) as [[e' s2]|] eqn:E2; [|discriminate]. injection E as <- <-. cbn [wf] in W.
  assert (Wl : wf (Loop ls false c inc b e) = true) by exact W. apply andb_true_iff in W. destruct W as [W We]. apply andb_true_iff in W. destruct W as [Wp Wb].
  assert (B1 : brk s1 = None) by (eapply plain_brk; [exact Wp|exact E1|exact B]). destruct (tr_stat b _ _ _ _ E1) as [[[G1 U1] _] NL]. cbn [more nxt] in G1.
  assert (L2 : below (En KLoop ls (nxt s) (Some (S (nxt s))) true :: k) (nxt (more (more s)))) by (apply below_cons; cbn [more nxt one two]; [eapply below_mono; [exact L|lia]|lia|intros l Q; injection Q as <-; lia]).
  assert (U2 : incl (used s1) (used s2)). { destruct e as [y|]; cbn [opt_tr] in E2; [|injection E2 as <- <-; apply incl_refl]. destruct (tr y k (take s1)) as [[c2 s3]|] eqn:Q; [|discriminate]. injection E2 as <- <-. destruct (tr_stat y _ _ _ _ Q) as [[[_ U] _] _]. exact U. }
  cbn [set_brk brk]. rewrite B1 in *. set (b'' := if is_used (S (nxt s)) s1 then CBlk [b'; CLab (S (nxt s))] else b') in *. cbn [s_one] in H. cbn [one_step]. destruct (isdo || tests c x) eqn:Tc.
  - destruct (srun n [b] x) as [[r0 x0]|] eqn:Hb; [|discriminate]. destruct (P_plain n HP _ _ _ _ _ _ _ _ Wp Wb E1 B L2 Hb) as (m & o & _ & S1 & A).
    assert (NEXT : (o = N \/ o = Goto (S (nxt s)) /\ In (S (nxt s)) (used s1)) -> srun n [Loop ls false c inc b e] (step_inc acts inc x0) = Some (r, x1) -> exists m0 o0, match run m0 [b''] [b''] x with Some (N, x2) => run m0 [CLoop false c inc b'' e'] [CLoop false c inc b'' e'] (step_inc acts inc x2) | y => y end = Some (o0, x1) /\ agree k (if is_used (nxt s) s1 then Some (nxt s) else None) (set_brk s2 (if is_used (nxt s) s1 then Some (nxt s) else None)) r o0).
    { intros O R. destruct (body_go m b' x o x0 (S (nxt s)) s1 NL S1 O) as (m1 & R1). fold b'' in R1. assert (E3 : tr (Loop ls false c inc b e) k s = Some (CLoop false c inc b'' e', set_brk s2 (if is_used (nxt s) s1 then Some (nxt s) else None))) by (cbn [tr]; rewrite E1, E2, B1; reflexivity).
      destruct (HP _ _ _ _ _ _ _ _ Wl E3 B L R) as (m2 & o2 & S2 & A2). assert (R2 := run_one _ _ _ _ _ (I : not_lab (CLoop false c inc b'' e')) S2). exists (m1 + S (S m2)), o2. rewrite (run_mono m1 (m1 + S (S m2)) _ _ _ _ ltac:(lia) R1). split; [eapply run_mono; [|exact R2]; lia|exact A2]. }
    destruct r0 as [|br].
    + cbn [ends_loop] in H. cbn [agree] in A. destruct A as [A|(l & A & _)]; [|discriminate]. apply NEXT; auto.
    + cbn [agree] in A. destruct A as (l & Tl & Ul & ->). assert (TL := target_loop _ _ _ _ _ _ Tl). destruct (ends_loop ls (Ex br)) as [[|br']|].
      * subst l. injection H as <- <-. destruct (body_out m b' x (nxt s) x0 (S (nxt s)) s1 NL S1 ltac:(lia)) as (m1 & R1). fold b'' in R1. exists m1, (Goto (nxt s)). rewrite R1. split; [reflexivity|]. cbn [agree]. right. exists (nxt s). rewrite (proj2 (used_in _ _) Ul). auto.
      * destruct TL as [-> TL]. injection H as <- <-. assert (Ll := target_below _ _ _ _ L TL). destruct (body_out m b' x l x0 (S (nxt s)) s1 NL S1 ltac:(lia)) as (m1 & R1). fold b'' in R1. exists m1, (Goto l). rewrite R1. split; [reflexivity|]. cbn [agree set_brk used]. exists l. auto.
      * subst l. apply NEXT; auto.
  - destruct e as [y|]; cbn [opt_tr] in E2.
    + destruct (tr y k (take s1)) as [[c2 s3]|] eqn:Q; [|discriminate]. injection E2 as <- <-. apply andb_true_iff in We. destruct We as [Wp2 Wy]. destruct (P_plain n HP y k (take s1) c2 s3 x r x1 Wp2 Wy Q eq_refl (below_mono k (nxt s) (nxt (take s1)) L (ltac:(cbn [take nxt]; lia))) H) as (m & o & R & _ & A). exists m, o. split; [exact R|]. destruct r; cbn [agree set_brk used] in *; [destruct A as [A|(l & A & _)]; [auto|discriminate]|exact A].
    + injection E2 as <- <-. injection H as <- <-. exists 0, N. split; [reflexivity|cbn [agree]; auto].
Qed.
(** switch *)
Definition sw_agree (ls : list lab) (k : list entry) (send : T) (r : res) (o : out) : Prop :=
  match r with
  | Go | Ex (B None) => o = N
  | Ex (B (Some lb)) => if has lb ls then o = N else exists l, target k (B (Some lb)) = Some l /\ In l (used send) /\ o = Goto l
  | Ex b => exists l, target k b = Some l /\ In l (used send) /\ o = Goto l
  end.
Definition is_def {A} (z : option Z * A) : bool := match fst z with None => true | Some _ => false end.
Lemma tops_cons_blk cs r : tops (CBlk cs :: r) = tops r. Proof. reflexivity. Qed.
Lemma cases_sim n (HQ : Qn n) : forall cases sw k s cs s', forallb (fun c => forallb wf (snd c)) cases = true -> fix_cases (fun k' kids => fix_block (fun y => tr y k') kids) cases sw k s = Some (cs, s') ->
  kd sw = KSwitch -> brk s = None -> forall base, below k base -> base <= one sw < nxt s -> (forall fd, two sw = Some fd -> base <= fd < nxt s /\ fd <> one sw) -> (fdok sw = true -> forall fd, two sw = Some fd -> existsb is_def cases = true) ->
  forall send tail pre, incl (used s') (used send) -> (tail = [] /\ ~ In (one sw) (used send) \/ tail = [CLab (one sw)]) ->
  (forall l, In l (tops pre) -> base <= l < nxt s /\ l <> one sw /\ (fdok sw = true -> Some l <> two sw)) ->
  (forall x r x1, clauses (srun n) false cases x = Some (r, x1) -> exists m o, run m (pre ++ concat (map snd cs) ++ tail) (concat (map snd cs) ++ tail) x = Some (o, x1) /\ sw_agree (lbs sw) k send r o) /\
  (forall x r x1 fd, clauses (srun n) true cases x = Some (r, x1) -> fdok sw = true -> two sw = Some fd -> In fd (used s) -> exists R m o, after fd (pre ++ concat (map snd cs) ++ tail) = Some R /\ run m (pre ++ concat (map snd cs) ++ tail) R x = Some (o, x1) /\ sw_agree (lbs sw) k send r o) /\
  (forall p suf x r x1, from p cases = Some suf -> clauses (srun n) false suf x = Some (r, x1) -> exists csuf m o, from p cs = Some csuf /\ run m (pre ++ concat (map snd cs) ++ tail) (concat (map snd csuf) ++ tail) x = Some (o, x1) /\ sw_agree (lbs sw) k send r o).
Proof.
  induction cases as [|[v b] cases IH]; intros sw k s cs s' W E KD B base Lk L1 L2 FD send tail pre US TL PRE.
  - cbn [fix_cases] in E. injection E as <- <-. cbn [map concat app]. split; [|split].
    + intros x r x1 H. injection H as <- <-. destruct TL as [[-> _]| ->]; [exists 1, N|exists 2, N]; (split; [reflexivity|cbn [sw_agree]; reflexivity]).
    + intros x r x1 fd _ F2 T2. specialize (FD F2 fd T2). discriminate.
    + discriminate.
  - cbn [fix_cases] in E. set (sw' := match v with None => En (kd sw) (lbs sw) (one sw) (two sw) false | Some _ => sw end) in *. set (fl := nxt s) in *. cbv zeta in E.
    destruct (fix_block _ b (more s)) as [[cs1 s1]|] eqn:E1; [|discriminate]. destruct (fix_cases _ cases sw' k s1) as [[cs2 s2]|] eqn:E2; [|discriminate]. injection E as <- <-. cbn [forallb snd] in W. apply andb_true_iff in W. destruct W as [Wb Wc].
    assert (SW : kd sw' = KSwitch /\ lbs sw' = lbs sw /\ one sw' = one sw /\ two sw' = two sw) by (unfold sw'; destruct v; auto). destruct SW as (KD' & Sl & So & St2).
    destruct (block_stat b (all_stat _) _ _ _ _ E1) as ([G1 U1] & B1 & T1). destruct (cases_stat cases (all_stat2 _) _ _ _ _ _ E2) as ([G2 U2] & B2 & F2 & T2). cbn [more nxt used brk] in G1, U1, B1, T1.
    assert (B1' : brk s1 = None) by (destruct B1 as [B1|[_ B1]]; [auto|rewrite B1; exact B]). rewrite St2 in T2.
    set (fll := if is_used fl s1 then [CLab fl] else []). 
    set (fdl := match v, two sw' with None, Some fd => if is_used fd s1 then [CLab fd] else [] | _, _ => [] end).
    assert (BODY : match v, two sw' with None, Some fd => if is_used fd s1 then CLab fd :: CBlk cs1 :: fll else CBlk cs1 :: fll | _, _ => CBlk cs1 :: fll end = fdl ++ CBlk cs1 :: fll) by (unfold fdl; destruct v; [reflexivity|]; destruct (two sw'); [|reflexivity]; destruct (is_used n0 s1); reflexivity).
    fold fll in BODY |- *. rewrite BODY. clear BODY. cbn [map snd concat]. rewrite <- !app_assoc. cbn [app].
    assert (Hfll : forall l, In l (tops fll) -> l = fl /\ In fl (used s1)). { intros l Hl. unfold fll in Hl. destruct (is_used fl s1) eqn:Q; cbn in Hl; [|tauto]. apply used_in in Q. destruct Hl as [<-|[]]; auto. }
    assert (Hfdl : forall l, In l (tops fdl) -> v = None /\ two sw = Some l). { intros l Hl. unfold fdl in Hl. destruct v; [destruct Hl|]. rewrite St2 in Hl. destruct (two sw) as [fd|]; [|destruct Hl]. destruct (is_used fd s1); cbn in Hl; [|tauto]. destruct Hl as [<-|[]]; auto. }
    set (pre' := pre ++ fdl ++ CBlk cs1 :: fll).
    assert (TP : forall l, In l (tops pre') -> In l (tops pre) \/ In l (tops fdl) \/ In l (tops fll)). { intros l Hl. unfold pre' in Hl. rewrite !tops_app, tops_cons_blk, !in_app_iff in Hl. tauto. }
    assert (PRE' : forall l, In l (tops pre') -> base <= l < nxt s1 /\ l <> one sw' /\ (fdok sw' = true -> Some l <> two sw')).
    { intros l Hl. rewrite So, St2. destruct (TP l Hl) as [Hl1|[Hl1|Hl1]].
      - destruct (PRE l Hl1) as (P1 & P2 & P3). split; [lia|]. split; [auto|]. unfold sw'. destruct v; [auto|discriminate].
      - destruct (Hfdl l Hl1) as [V T3]. destruct (L2 l T3). split; [lia|]. split; [auto|]. unfold sw'. rewrite V. discriminate.
      - destruct (Hfll l Hl1) as [-> _]. unfold fl. split; [lia|]. split; [lia|]. intros _ Q. symmetry in Q. destruct (L2 _ Q). lia. }
    assert (FD' : fdok sw' = true -> forall fd, two sw' = Some fd -> existsb is_def cases = true).
    { unfold sw'. destruct v; [|discriminate]. intros Q fd Q2. specialize (FD Q fd Q2). exact FD. }
    assert (L1' : base <= one sw' < nxt s1) by (rewrite So; lia). assert (L2' : forall fd, two sw' = Some fd -> base <= fd < nxt s1 /\ fd <> one sw') by (rewrite So, St2; intros fd Q; destruct (L2 fd Q); split; [lia|auto]).
    assert (TL' : tail = [] /\ ~ In (one sw') (used send) \/ tail = [CLab (one sw')]) by (rewrite So; exact TL).
    destruct (IH sw' k s1 cs2 s2 Wc E2 KD' B1' base Lk L1' L2' FD' send tail pre' US TL' PRE') as (I1 & I2 & I3). rewrite Sl in I1, I2, I3.
    set (ALL := pre ++ fdl ++ CBlk cs1 :: fll ++ concat (map snd cs2) ++ tail). assert (EA : pre' ++ concat (map snd cs2) ++ tail = ALL) by (unfold pre', ALL; rewrite <- !app_assoc; reflexivity). rewrite EA in I1, I2, I3.
    assert (Lb : below (En KCase [] fl None true :: sw' :: k) (nxt (more s))).
    { apply below_cons; [apply below_cons| |]; cbn [more nxt one two]; [eapply below_mono; [exact Lk|lia]|rewrite So; lia|rewrite St2; intros l Q; destruct (L2 l Q); lia|unfold fl; lia|discriminate]. }
    assert (M : forall x r x1, match srun n b x with None => None | Some (Go, y) | Some (Ex F, y) => clauses (srun n) false cases y | Some (Ex FD, y) => clauses (srun n) true cases y | Some (Ex b, y) => Some (Ex b, y) end = Some (r, x1) ->
      exists m o, run m ALL (CBlk cs1 :: fll ++ concat (map snd cs2) ++ tail) x = Some (o, x1) /\ sw_agree (lbs sw) k send r o).
    { intros x r x1 H. destruct (srun n b x) as [[r0 x0]|] eqn:Hb; [|discriminate]. destruct (HQ b _ _ _ _ _ _ _ Wb E1 B Lb Hb []) as (m & o & R & A); [intros l []|]. cbn [app] in R. assert (S1 : one_step m (CBlk cs1) x = Some (o, x0)) by exact R.
      assert (REST : forall l, In l (tops (concat (map snd cs2))) -> Some l = two sw \/ nxt s1 <= l) by (intros l Hl; destruct (T2 l Hl) as [?|?]; [auto|right; lia]).
      assert (NEXT : forall y r, clauses (srun n) false cases y = Some (r, x1) -> exists m o, run m ALL (fll ++ concat (map snd cs2) ++ tail) y = Some (o, x1) /\ sw_agree (lbs sw) k send r o).
      { intros y r2 Hy. destruct (I1 y r2 x1 Hy) as (m2 & o2 & R2 & A2). unfold fll. destruct (is_used fl s1); cbn [app]; [|exists m2, o2; auto]. destruct (run_go 0 m2 ALL (CLab fl) _ y y _ eq_refl R2) as (m3 & R3). exists m3, o2. auto. }
      destruct r0 as [|br]; cbn [agree] in A.
      - destruct A as [->|(l & A & _)]; [|discriminate]. destruct (NEXT x0 r H) as (m2 & o2 & R2 & A2). destruct (run_go _ _ _ _ _ _ _ _ S1 R2) as (m3 & R3). exists m3, o2. auto.
      - destruct A as (l & Tl & Ul & ->). assert (TC := target_case _ _ _ _ _ KD' Tl). rewrite Sl, So, St2 in TC.
        assert (BRK : l = one sw -> exists m o, run m ALL (CBlk cs1 :: fll ++ concat (map snd cs2) ++ tail) x = Some (o, x0) /\ o = N).
        { intros ->. destruct TL as [[_ Z]| ->]; [exfalso; apply Z, US, U2, Ul|]. assert (AA : after (one sw) ALL = Some []).
          { rewrite <- EA. rewrite app_assoc. apply after_here. rewrite tops_app, in_app_iff. intros [Z|Z]; [destruct (PRE' _ Z) as (_ & Z2 & _); congruence|]. destruct (REST _ Z) as [Z2|Z2]; [symmetry in Z2; destruct (L2 _ Z2); congruence|lia]. }
          destruct (run_jump _ 1 _ _ (fll ++ concat (map snd cs2) ++ [CLab (one sw)]) _ _ _ _ _ S1 AA (run_nil _ _)) as (m3 & R3). exists m3, N. auto. }
        assert (OUT : target k br = Some l -> exists m o, run m ALL (CBlk cs1 :: fll ++ concat (map snd cs2) ++ tail) x = Some (o, x0) /\ exists l, target k br = Some l /\ In l (used send) /\ o = Goto l).
        { intros Tk. assert (Ll := target_below _ _ _ _ Lk Tk). assert (AA : after l ALL = None).
          { apply after_none. rewrite <- EA. rewrite !tops_app, !in_app_iff. intros [Z|[Z|Z]].
            - destruct (PRE' _ Z) as (Z2 & _). lia.
            - destruct (REST _ Z) as [Z2|Z2]; [symmetry in Z2; destruct (L2 _ Z2); lia|lia].
            - destruct TL as [[-> _]| ->]; cbn in Z; [tauto|]. destruct Z as [Z|[]]. lia. }
          destruct (run_out _ _ _ (fll ++ concat (map snd cs2) ++ tail) _ _ _ S1 AA) as (m3 & R3). exists m3, (Goto l). split; [exact R3|]. exists l. split; [exact Tk|]. split; [apply US, U2, Ul|reflexivity]. }
        destruct br as [[lb|]|[lb|]| |]; try (injection H as <- <-; cbn [sw_agree]; auto; fail).
        + injection H as <- <-. cbn [sw_agree]. destruct (has lb (lbs sw)); auto.
        + subst l. destruct (I1 x0 r x1 H) as (m2 & o2 & R2 & A2). assert (AA : after fl ALL = Some (concat (map snd cs2) ++ tail)).
          { unfold ALL, fll. rewrite (proj2 (used_in _ _) Ul). rewrite app_assoc. change (CBlk cs1 :: [CLab fl] ++ concat (map snd cs2) ++ tail) with ([CBlk cs1] ++ CLab fl :: concat (map snd cs2) ++ tail). rewrite app_assoc. apply after_here. rewrite !tops_app, !in_app_iff. intros [[Z|Z]|Z].
            - destruct (PRE _ Z) as (Z2 & _). unfold fl in *. lia.
            - destruct (Hfdl _ Z) as [_ Z2]. destruct (L2 _ Z2). unfold fl in *. lia.
            - destruct Z. }
          destruct (run_jump _ _ _ _ (fll ++ concat (map snd cs2) ++ tail) _ _ _ _ _ S1 AA R2) as (m3 & R3). exists m3, o2. auto.
        + destruct TC as [Fo Tw]. destruct (I2 x0 r x1 l H Fo) as (R0 & m2 & o2 & AA & R2 & A2); [rewrite St2; exact Tw|exact Ul|]. destruct (run_jump _ _ _ _ (fll ++ concat (map snd cs2) ++ tail) _ _ _ _ _ S1 AA R2) as (m3 & R3). exists m3, o2. auto. }
    assert (C1 : forall x r x1, clauses (srun n) false ((v, b) :: cases) x = Some (r, x1) -> exists m o, run m ALL (fdl ++ CBlk cs1 :: fll ++ concat (map snd cs2) ++ tail) x = Some (o, x1) /\ sw_agree (lbs sw) k send r o).
    { intros x r x1 H. destruct (M x r x1 H) as (m & o & R & A). unfold fdl. destruct v; cbn [app]; [exists m, o; auto|]. destruct (two sw') as [fd|]; cbn [app]; [|exists m, o; auto]. destruct (is_used fd s1); cbn [app]; [|exists m, o; auto]. destruct (run_go 0 m ALL (CLab fd) _ x x _ eq_refl R) as (m3 & R3). exists m3, o. auto. }
    split; [exact C1|]. split.
    + intros x r x1 fd H Fo Tw Uf. destruct v as [v|].
      * cbn [clauses andb] in H. apply (I2 x r x1 fd H); [exact Fo|rewrite St2; exact Tw|apply U1, Uf].
      * cbn [clauses andb] in H. destruct (M x r x1 H) as (m & o & R & A). exists (CBlk cs1 :: fll ++ concat (map snd cs2) ++ tail), m, o. split; [|auto]. unfold ALL, fdl. rewrite St2, Tw. rewrite (proj2 (used_in fd s1)) by (apply U1, Uf). cbn [app]. apply after_here. intros Z. destruct (PRE _ Z) as (_ & _ & Z2). apply Z2; auto.
    + intros p suf x r x1 H C. cbn [from] in *. destruct (p v).
      * injection H as <-. destruct (C1 x r x1 C) as (m & o & R & A). eexists _, m, o. split; [reflexivity|]. cbn [map snd concat]. rewrite <- !app_assoc. cbn [app]. auto.
      * destruct (I3 p suf x r x1 H C) as (csuf & m & o & Fr & R & A). exists csuf, m, o. auto.
Qed.
Lemma add_last_cons l z r : r <> [] -> add_last l (z :: r) = z :: add_last l r.
Proof. destruct z, r; [congruence|reflexivity]. Qed.
Lemma add_last_concat l cs : concat (map snd (add_last l cs)) = concat (map snd cs) ++ [CLab l].
Proof.
  induction cs as [|[v b] cs IH]; [reflexivity|]. destruct cs as [|z cs]; [cbn [add_last map snd concat]; rewrite !app_nil_r; reflexivity|]. rewrite add_last_cons by discriminate. cbn [map concat snd] in *. rewrite IH. rewrite <- !app_assoc. reflexivity.
Qed.
Lemma from_cons {A} p v (a : A) r : from p ((v, a) :: r) = if p v then Some ((v, a) :: r) else from p r. Proof. reflexivity. Qed.
Lemma from_add_last p l cs : cs <> [] -> from p (add_last l cs) = option_map (add_last l) (from p cs).
Proof.
  induction cs as [|[v b] cs IH]; [congruence|]. intros _. destruct cs as [|z cs]; [cbn [add_last from]; destruct (p v); reflexivity|]. rewrite add_last_cons by discriminate. rewrite !from_cons. destruct (p v); [cbn [option_map]; rewrite (add_last_cons l (v, b)) by discriminate; reflexivity|]. apply IH. discriminate.
Qed.
Lemma from_none {A C} p (a : list (option Z * A)) : forall b : list (option Z * C), map fst a = map fst b -> from p a = None -> from p b = None.
Proof. induction a as [|[v x] a IH]; intros [|[w y] b] M H; try discriminate; [reflexivity|]. cbn [map fst from] in *. injection M as -> M. destruct (p w); [discriminate|]. auto. Qed.
Lemma sw_agree_end ls k s r o x1 : sw_agree ls k s r o -> exists r', match r with Ex (B None) => Some (Go, x1) | r => Some (leaves ls r, x1) end = Some (r', x1 : st) /\ agree k (brk s) s r' o.
Proof.
  intros H. destruct r as [|[[lb|]|lb| |]]; cbn [sw_agree leaves] in *; try (eexists; split; [reflexivity|]; cbn [agree]; auto; fail).
  destruct (has lb ls); eexists; (split; [reflexivity|]); cbn [agree]; auto.
Qed.
Lemma switch_case n (HQ : Qn n) ls c cases k s cd s' x r x1 : wf (Switch ls c cases) = true -> tr (Switch ls c cases) k s = Some (cd, s') -> brk s = None -> below k (nxt s) -> s_one n (Switch ls c cases) x = Some (r, x1) ->
  exists m o, one_step m cd x = Some (o, x1) /\ agree k (brk s') s' r o.
Proof.
  intros W E B L H. cbn [tr] in E. set (fd := if existsb _ cases then Some (S (nxt s)) else None) in *. destruct (fix_cases _ cases _ k (more (more s))) as [[cs s1]|] eqn:E1; [|discriminate]. injection E as <- <-. cbn [s_one] in H. cbn [one_step]. cbn [wf] in W.
  destruct (clauses (srun n) false (select (vals c x) cases) x) as [[r0 x0]|] eqn:Hc; [|discriminate].
  set (tail := if is_used (nxt s) s1 then [CLab (nxt s)] else []).
  destruct (cases_stat cases (all_stat2 _) _ _ _ _ _ E1) as (_ & _ & MF & _).
  destruct (cases_sim n HQ cases _ k _ _ _ W E1 eq_refl B (nxt s) L ltac:(cbn [one more nxt]; lia)) with (send := s1) (tail := tail) (pre := @nil code) as (_ & _ & SIM); cbn [one two more nxt fdok app].
  { intros l Q. unfold fd in Q. destruct (existsb _ cases); [|discriminate]. injection Q as <-. lia. }
  { intros _ l Q. unfold fd in Q. unfold is_def. destruct (existsb _ cases); [reflexivity|discriminate]. }
  { apply incl_refl. }
  { unfold tail. destruct (is_used (nxt s) s1) eqn:U; [auto|]. left. split; [reflexivity|]. intros Z. apply used_in in Z. congruence. }
  { intros l []. }
  cbn [lbs app] in SIM.
  assert (CC : concat (map snd (if is_used (nxt s) s1 then add_last (nxt s) cs else cs)) = concat (map snd cs) ++ tail) by (unfold tail; destruct (is_used (nxt s) s1); [apply add_last_concat|rewrite app_nil_r; reflexivity]). rewrite CC.
  assert (FIN : forall o m, run m (concat (map snd cs) ++ tail) (concat (map snd (select (vals c x) (if is_used (nxt s) s1 then add_last (nxt s) cs else cs)))) x = Some (o, x0) -> sw_agree ls k s1 r0 o -> exists m0 o0, run m0 (concat (map snd cs) ++ tail) (concat (map snd (select (vals c x) (if is_used (nxt s) s1 then add_last (nxt s) cs else cs)))) x = Some (o0, x1) /\ agree k (brk s1) s1 r o0).
  { intros o m R A. destruct (sw_agree_end ls k s1 r0 o x0 A) as (r' & Er & A'). assert (X : Some (r', x0) = Some (r, x1)) by (rewrite <- Er, <- H; destruct r0 as [|[[lb|]|lb| |]]; reflexivity). injection X as -> ->. exists m, o. auto. }
  assert (SEL : forall p suf, from p cases = Some suf -> select (vals c x) cases = suf -> (forall A (cs' : list (option Z * A)), map fst cs' = map fst cases -> forall csuf, from p cs' = Some csuf -> select (vals c x) cs' = csuf) ->
    exists m0 o0, run m0 (concat (map snd cs) ++ tail) (concat (map snd (select (vals c x) (if is_used (nxt s) s1 then add_last (nxt s) cs else cs)))) x = Some (o0, x1) /\ agree k (brk s1) s1 r o0).
  { intros p suf Fp Es Hs. rewrite Es in Hc. destruct (SIM p suf x r0 x0 Fp Hc) as (csuf & m & o & Fc & R & A). apply (FIN o m); [|exact A].
    assert (NE : cs <> []) by (intros ->; discriminate).
    assert (Q : concat (map snd (select (vals c x) (if is_used (nxt s) s1 then add_last (nxt s) cs else cs))) = concat (map snd csuf) ++ tail).
    { unfold tail. destruct (is_used (nxt s) s1); [|rewrite (Hs _ cs MF csuf Fc), app_nil_r; reflexivity]. rewrite (Hs _ (add_last (nxt s) cs)) with (csuf := add_last (nxt s) csuf); [apply add_last_concat| |rewrite from_add_last, Fc by auto; reflexivity]. rewrite <- MF. clear - NE. induction cs as [|[v b] cs IH]; [congruence|]. destruct cs as [|z cs]; [reflexivity|]. rewrite add_last_cons by discriminate. cbn [map]. f_equal. apply IH. discriminate. }
    rewrite Q. exact R. }
  unfold select in SEL at 1. destruct (from (is_val (vals c x)) cases) as [suf|] eqn:F1.
  - apply (SEL _ suf F1); [reflexivity|]. intros A cs' _ csuf Q. unfold select. rewrite Q. reflexivity.
  - destruct (from (fun o => match o with None => true | Some _ => false end) cases) as [suf|] eqn:F3.
    + apply (SEL _ suf F3); [reflexivity|]. intros A cs' M csuf Q. unfold select. rewrite (from_none (is_val (vals c x)) cases cs' (eq_sym M) F1), Q. reflexivity.
    + clear SEL. unfold select in Hc. rewrite F1, F3 in Hc. injection Hc as <- <-. assert (X : select (vals c x) cs = []) by (unfold select; rewrite (from_none _ cases cs (eq_sym MF) F1), (from_none _ cases cs (eq_sym MF) F3); reflexivity).
      destruct cs as [|z cs].
      * apply (FIN N 2); [|reflexivity]. unfold tail. destruct (is_used (nxt s) s1); reflexivity.
      * apply (FIN N 1); [|reflexivity]. assert (Y : select (vals c x) (if is_used (nxt s) s1 then add_last (nxt s) (z :: cs) else z :: cs) = []).
        { destruct (is_used (nxt s) s1); [|exact X]. unfold select in *. rewrite !from_add_last by discriminate. destruct (from (is_val (vals c x)) (z :: cs)) as [q|] eqn:Q1; [subst q; exfalso; rewrite (from_none _ cases (z :: cs) (eq_sym MF) F1) in Q1; discriminate|]. rewrite (from_none _ cases (z :: cs) (eq_sym MF) F3). reflexivity. }
        rewrite Y. reflexivity.
Qed.
Lemma K_all n : Pn n -> Qn n -> Kn n.
Proof.
  intros HP HQ y k s c s' x r x1 W E B L H. destruct y as [a|br|ls kids|ls cn t e|ls isdo cn inc b e|ls cn cases].
  - cbn [tr] in E. injection E as <- <-. injection H as <- <-. exists 0, N. split; [reflexivity|cbn [agree]; auto].
  - cbn [tr] in E. destruct (target k br) as [l|] eqn:Q; [|discriminate]. injection E as <- <-. injection H as <- <-. exists 0, (Goto l). split; [reflexivity|]. cbn [agree use used]. exists l. cbn [In]. auto.
  - cbn [s_one] in H. destruct (srun n kids x) as [[r0 x0]|] eqn:Hk; [|discriminate]. injection H as <- <-. cbn [wf] in W. destruct ls as [|l0 ls]; cbn [tr] in E.
    + destruct (fix_block _ kids s) as [[cs s1]|] eqn:E1; [|discriminate]. injection E as <- <-. destruct (HQ kids k s cs s1 x r0 x0 W E1 B L Hk []) as (m & o & R & A); [intros l []|]. exists m, o. split; [exact R|]. rewrite leaves_nil. destruct r0; cbn [agree] in *; [destruct A as [A|(l & A & _)]; [auto|discriminate]|exact A].
    + destruct (fix_block _ kids (more s)) as [[cs s1]|] eqn:E1; [|discriminate]. injection E as <- <-. destruct (HQ kids _ (more s) cs s1 x r0 x0 W E1 B) with (pre := @nil code) as (m & o & R & A); [apply below_cons; cbn [more nxt one two]; [eapply below_mono; [exact L|lia]|lia|discriminate]|exact Hk|intros l []|]. exists m, o. split; [exact R|]. apply agree_leaves in A. exact A.
  - cbn [s_one] in H. match type of H with match ?X with _ => _ end = _ => destruct X as [[r0 x0]|] eqn:Hk; [|discriminate] end. injection H as <- <-. cbn [wf] in W. destruct ls as [|l0 ls]; cbn [tr] in E.
    + destruct (tr t k s) as [[t' s1]|] eqn:E1; [|discriminate]. destruct (opt_tr _ e s1) as [[e' s2]|] eqn:E2; [|discriminate]. injection E as <- <-. destruct (if_case n HP cn t e k s t' s1 e' s2 x r0 x0 W B L E1 E2 Hk) as (B2 & m & o & R & A). exists m, o. split; [exact R|]. rewrite leaves_nil, B2. exact A.
    + destruct (tr t _ (more s)) as [[t' s1]|] eqn:E1; [|discriminate]. destruct (opt_tr _ e s1) as [[e' s2]|] eqn:E2; [|discriminate]. injection E as <- <-. destruct (if_case n HP cn t e (En KBlock (l0 :: ls) (nxt s) None true :: k) (more s) t' s1 e' s2 x r0 x0 W B) as (B2 & m & o & R & A); [apply below_cons; cbn [more nxt one two]; [eapply below_mono; [exact L|lia]|lia|discriminate]|exact E1|exact E2|exact Hk|]. exists m, o. split; [exact R|]. apply agree_leaves in A. exact A.
  - eapply loop_case; eauto.
  - eapply switch_case; eauto.
Qed.
Lemma sim n : Pn n /\ Qn n.
Proof.
  induction n as [|n [HP HQ]]; [split; [intros y k s c s' x r x1 _ _ _ _ H; discriminate|intros kids k s cs s' x r x1 _ _ _ _ H; discriminate]|]. pose proof (K_all n HP HQ) as HK. split; [apply K_P; auto|apply K_Q; auto].
Qed.
End Sim.
(** the labels of the code *)
Definition ok_labs (k : list entry) (s s' : T) (b : option nat) (ls gs : list nat) : Prop :=
  NoDup ls /\ (forall l, In l ls -> nxt s <= l < nxt s' /\ b <> Some l) /\ (forall l, In l gs -> In l (used s') /\ (In l ls \/ b = Some l \/ exists br, target k br = Some l)).
Definition labs (x : stmt) : Prop := forall k s c s', wf x = true -> one_default x = true -> tr x k s = Some (c, s') -> brk s = None -> below k (nxt s) -> ok_labs k s s' (brk s') (labels c) (gotos c).
Lemma NoDup_two (a b : list nat) m : NoDup a -> NoDup b -> (forall l, In l a -> l < m) -> (forall l, In l b -> m <= l) -> NoDup (a ++ b).
Proof. induction a as [|x a IH]; cbn [app]; intros A B C D; [exact B|]. inversion A; subst. constructor; [|apply IH; auto; intros l Hl; apply C; cbn; auto]. rewrite in_app_iff. intros [Z|Z]; [auto|]. specialize (C x (or_introl eq_refl)). specialize (D x Z). lia. Qed.
Lemma ok_nil k s s' b : ok_labs k s s' b [] []. Proof. split; [constructor|]. split; intros l []. Qed.
Lemma labs_block kids : Forall labs kids -> forall k s cs s', forallb wf kids = true -> forallb one_default kids = true -> fix_block (fun y => tr y k) kids s = Some (cs, s') -> brk s = None -> below k (nxt s) -> ok_labs k s s' None (flat_map labels cs) (flat_map gotos cs).
Proof.
  induction 1 as [|y kids Hy _ IH]; intros k s cs s' W O E B L; cbn [fix_block] in E; [injection E as <- <-; apply ok_nil|].
  destruct (tr y k s) as [[c s1]|] eqn:E1; [|discriminate]. destruct (fix_block _ kids (take s1)) as [[cs2 s2]|] eqn:E2; [|discriminate]. injection E as <- <-. cbn [forallb] in W, O. apply andb_true_iff in W, O. destruct W as [W1 W2], O as [O1 O2].
  destruct (Hy k s c s1 W1 O1 E1 B L) as (N1 & R1 & G1). destruct (tr_stat y _ _ _ _ E1) as [[[Gr _] _] _]. destruct (block_stat kids (all_stat _) _ _ _ _ E2) as ([Gr2 Us2] & _). cbn [take nxt used] in Gr2, Us2.
  destruct (IH k (take s1) cs2 s2 W2 O2 E2 eq_refl (below_mono _ _ _ L Gr)) as (N2 & R2 & G2). cbn [take nxt] in R2. assert (Bk := tr_brk _ _ _ _ _ E1 B).
  assert (EL : flat_map labels (c :: opt_lab (brk s1) ++ cs2) = (labels c ++ flat_map labels (opt_lab (brk s1))) ++ flat_map labels cs2) by (cbn [flat_map]; rewrite flat_map_app, app_assoc; reflexivity).
  assert (EG : flat_map gotos (c :: opt_lab (brk s1) ++ cs2) = gotos c ++ flat_map gotos cs2) by (cbn [flat_map]; rewrite flat_map_app; destruct (brk s1); reflexivity). rewrite EL, EG. clear EL EG.
  assert (Lo : forall l, In l (flat_map labels (opt_lab (brk s1))) <-> brk s1 = Some l) by (intros l; destruct (brk s1); cbn; [|intuition discriminate]; split; [intros [->|[]]; reflexivity|intros Q; injection Q as ->; auto]).
  split; [|split].
  - apply NoDup_two with (m := nxt s1); auto; [|intros l Hl; rewrite in_app_iff in Hl; destruct Hl as [Hl|Hl]; [apply R1 in Hl; lia|apply Lo in Hl; specialize (Bk l Hl); lia]|intros l Hl; apply R2 in Hl; lia].
    destruct (brk s1) as [l|]; cbn [opt_lab flat_map labels app]; [|rewrite app_nil_r; auto]. apply NoDup_rev in N1. rewrite <- (rev_involutive (labels c ++ [l])). apply NoDup_rev. rewrite rev_app_distr. cbn [rev app]. constructor; [|auto]. rewrite <- in_rev. intros Z. apply R1 in Z. destruct Z; congruence.
  - intros l Hl. split; [|discriminate]. rewrite !in_app_iff in Hl. destruct Hl as [[Hl|Hl]|Hl]; [apply R1 in Hl; lia|apply Lo in Hl; specialize (Bk l Hl); lia|apply R2 in Hl; lia].
  - intros l Hl. rewrite in_app_iff in Hl. rewrite !in_app_iff. destruct Hl as [Hl|Hl].
    + destruct (G1 l Hl) as [U D]. split; [apply Us2, U|]. rewrite Lo. tauto.
    + destruct (G2 l Hl) as [U D]. split; [exact U|]. destruct D as [D|[D|D]]; [tauto|discriminate|tauto].
Qed.
Lemma labs_opt e k s c s' : (forall y, e = Some y -> labs y) -> match e with Some e => plain e && wf e | None => true end = true -> match e with Some e => one_default e | None => true end = true -> opt_tr (fun y => tr y k) e s = Some (c, s') -> brk s = None -> below k (nxt s) ->
  brk s' = None /\ grows s s' /\ ok_labs k s s' None (match c with Some c => labels c | None => [] end) (match c with Some c => gotos c | None => [] end).
Proof.
  intros H W O E B L. destruct e as [y|]; cbn [opt_tr] in E; [|injection E as <- <-; split; [auto|]; split; [split; [lia|apply incl_refl]|apply ok_nil]]. destruct (tr y k s) as [[c2 s3]|] eqn:Q; [|discriminate]. injection E as <- <-. apply andb_true_iff in W. destruct W as [Wp W]. assert (B3 := plain_brk _ _ _ _ _ Wp Q B). split; [exact B3|]. destruct (tr_stat y _ _ _ _ Q) as [[G _] _]. split; [exact G|]. rewrite <- B3. exact (H y eq_refl _ _ _ _ W O Q B L).
Qed.
Lemma NoDup_snoc (a : list nat) l : NoDup a -> ~ In l a -> NoDup (a ++ [l]).
Proof. intros A B. apply NoDup_rev in A. rewrite <- (rev_involutive (a ++ [l])). apply NoDup_rev. rewrite rev_app_distr. cbn [rev app]. constructor; [rewrite <- in_rev; auto|auto]. Qed.
Lemma nodup_app (a b : list nat) : NoDup a -> NoDup b -> (forall x, In x a -> ~ In x b) -> NoDup (a ++ b).
Proof. induction a as [|x a IH]; cbn [app]; intros A B C; [exact B|]. inversion A; subst. constructor; [|apply IH; auto; intros y Hy; apply C; cbn; auto]. rewrite in_app_iff. intros [Z|Z]; [auto|]. exact (C x (or_introl eq_refl) Z). Qed.
Lemma flat_cases {A} (f : code -> list A) (cs : list (option Z * list code)) : flat_map (fun z => flat_map f (snd z)) cs = flat_map f (concat (map snd cs)).
Proof. induction cs as [|z cs IH]; [reflexivity|]. cbn [flat_map map concat]. rewrite flat_map_app, IH. reflexivity. Qed.
Lemma no_default {A} (cases : list (option Z * A)) : defaults cases = 0 -> existsb is_def cases = false.
Proof. unfold defaults, is_def. induction cases as [|[[v|] b] cases IH]; cbn [filter fst existsb length orb]; auto. discriminate. Qed.
Lemma labs_cases cases : Forall (fun z => Forall labs (snd z)) cases -> forall sw k s cs s', forallb (fun c => forallb wf (snd c)) cases = true -> forallb (fun c => forallb one_default (snd c)) cases = true -> defaults cases <= 1 ->
  fix_cases (fun k' kids => fix_block (fun y => tr y k') kids) cases sw k s = Some (cs, s') -> kd sw = KSwitch -> brk s = None -> below (sw :: k) (nxt s) ->
  let ls := flat_map labels (concat (map snd cs)) in
  NoDup ls /\ (forall l, In l ls -> nxt s <= l < nxt s' \/ two sw = Some l /\ existsb is_def cases = true) /\
  (forall fd, two sw = Some fd -> In fd (used s) -> existsb is_def cases = true -> fdok sw = true -> In fd ls) /\
  ((fdok sw = true -> forall fd, two sw = Some fd -> existsb is_def cases = true) -> forall l, In l (flat_map gotos (concat (map snd cs))) -> In l (used s') /\ (In l ls \/ l = one sw \/ exists br, target k br = Some l)).
Proof.
  induction 1 as [|[v b] cases Hb _ IH]; intros sw k s cs s' W O D E KD B L; cbn [fix_cases] in E.
  - injection E as <- <-. cbn [map concat flat_map]. split; [constructor|]. split; [intros l []|]. split; [discriminate|intros _ l []].
  - set (sw' := match v with None => En (kd sw) (lbs sw) (one sw) (two sw) false | Some _ => sw end) in *. set (fl := nxt s) in *. cbv zeta in E.
    destruct (fix_block _ b (more s)) as [[cs1 s1]|] eqn:E1; [|discriminate]. destruct (fix_cases _ cases sw' k s1) as [[cs2 s2]|] eqn:E2; [|discriminate]. injection E as <- <-. cbn [forallb snd] in W, O. apply andb_true_iff in W, O. destruct W as [Wb Wc], O as [Ob Oc].
    assert (SW : kd sw' = KSwitch /\ one sw' = one sw /\ two sw' = two sw) by (unfold sw'; destruct v; auto). destruct SW as (KD' & So & St2).
    assert (Lsw : one sw < nxt s /\ forall fd, two sw = Some fd -> fd < nxt s) by (inversion L; subst; auto). assert (Lk : below k (nxt s)) by (inversion L; subst; auto). destruct Lsw as [L1 L2].
    destruct (block_stat b (all_stat _) _ _ _ _ E1) as ([G1 U1] & B1 & _). destruct (cases_stat cases (all_stat2 _) _ _ _ _ _ E2) as ([G2 U2] & _). cbn [more nxt used brk] in G1, U1, B1.
    assert (B1' : brk s1 = None) by (destruct B1 as [B1|[_ B1]]; [auto|rewrite B1; exact B]).
    assert (Lb : below (En KCase [] fl None true :: sw' :: k) (nxt (more s))).
    { apply below_cons; [apply below_cons| |]; cbn [more nxt one two]; [eapply below_mono; [exact Lk|lia]|rewrite So; lia|rewrite St2; intros l Q; specialize (L2 l Q); lia|unfold fl; lia|discriminate]. }
    assert (D' : defaults cases <= 1 /\ (v = None -> defaults cases = 0)). { unfold defaults in *. cbn [filter fst] in D. destruct v; [split; [exact D|discriminate]|]. cbn [length] in D. split; intros; lia. } destruct D' as [D1 D0].
    destruct (labs_block b Hb _ _ _ _ Wb Ob E1 B Lb) as (N1 & R1 & Go1).
    assert (Lsw' : below (sw' :: k) (nxt s1)) by (apply below_cons; [eapply below_mono; [exact Lk|lia]|rewrite So; lia|rewrite St2; intros l Q; specialize (L2 l Q); lia]).
    destruct (IH sw' k s1 cs2 s2 Wc Oc D1 E2 KD' B1' Lsw') as (N2 & R2 & F2 & Go2). rewrite St2, So in *. clear IH. cbn [more nxt] in R1.
    set (fll := if is_used fl s1 then [CLab fl] else []). 
    set (fdl := match v, two sw with None, Some fd => if is_used fd s1 then [CLab fd] else [] | _, _ => [] end).
    assert (BODY : match v, two sw with None, Some fd => if is_used fd s1 then CLab fd :: CBlk cs1 :: fll else CBlk cs1 :: fll | _, _ => CBlk cs1 :: fll end = fdl ++ CBlk cs1 :: fll) by (unfold fdl; destruct v; [reflexivity|]; destruct (two sw); [|reflexivity]; destruct (is_used n s1); reflexivity).
    fold fll in BODY |- *. rewrite BODY. clear BODY. cbn [map snd concat]. rewrite <- !app_assoc. cbn [app].
    assert (Hfll : forall l, In l (flat_map labels fll) <-> l = fl /\ In fl (used s1)). { intros l. unfold fll. destruct (is_used fl s1) eqn:Q; cbn [flat_map labels app In]; [apply used_in in Q; intuition|]. assert (~ In fl (used s1)) by (rewrite <- used_in; congruence). tauto. }
    assert (Hfdl : forall l, In l (flat_map labels fdl) <-> v = None /\ two sw = Some l /\ In l (used s1)).
    { intros l. unfold fdl. destruct v; [split; [intros []|intros [? _]; discriminate]|]. destruct (two sw) as [fd|]; [|split; [intros []|intros (_ & ? & _); discriminate]]. destruct (is_used fd s1) eqn:Q; cbn [flat_map labels app In].
      - apply used_in in Q. split; [intros [<-|[]]; auto|intros (_ & W2 & _); injection W2; auto].
      - split; [intros []|]. intros (_ & W2 & W3). injection W2 as <-. apply used_in in W3. congruence. }
    assert (Nfll : NoDup (flat_map labels fll)) by (unfold fll; destruct (is_used fl s1); repeat constructor; intros []). assert (Nfdl : NoDup (flat_map labels fdl)) by (unfold fdl; destruct v; [constructor|]; destruct (two sw); [|constructor]; destruct (is_used n s1); repeat constructor; intros []).
    assert (Gfll : flat_map gotos fll = []) by (unfold fll; destruct (is_used fl s1); reflexivity). assert (Gfdl : flat_map gotos fdl = []) by (unfold fdl; destruct v; [reflexivity|]; destruct (two sw); [|reflexivity]; destruct (is_used n s1); reflexivity).
    assert (EL : flat_map labels (fdl ++ CBlk cs1 :: fll ++ concat (map snd cs2)) = flat_map labels fdl ++ flat_map labels cs1 ++ flat_map labels fll ++ flat_map labels (concat (map snd cs2))) by (rewrite flat_map_app; cbn [flat_map labels]; rewrite flat_map_app; reflexivity).
    assert (EG : flat_map gotos (fdl ++ CBlk cs1 :: fll ++ concat (map snd cs2)) = flat_map gotos cs1 ++ flat_map gotos (concat (map snd cs2))) by (rewrite flat_map_app, Gfdl; cbn [flat_map gotos app]; rewrite flat_map_app, Gfll; reflexivity).
    rewrite EL, EG. clear EL EG. cbn zeta. split; [|split; [|split]].
    + apply nodup_app; [exact Nfdl|apply nodup_app; [exact N1|apply nodup_app; [exact Nfll|exact N2|]|]|].
      * intros l Hl Z. apply Hfll in Hl. destruct Hl as [-> _]. destruct (R2 _ Z) as [Z2|[Z2 _]]; [unfold fl in *; lia|]. specialize (L2 _ Z2). unfold fl in *. lia.
      * intros l Hl Z. apply R1 in Hl. destruct Hl as [Hl _]. rewrite in_app_iff in Z. destruct Z as [Z|Z]; [apply Hfll in Z; destruct Z as [-> _]; unfold fl in *; lia|]. destruct (R2 _ Z) as [Z2|[Z2 _]]; [lia|]. specialize (L2 _ Z2). lia.
      * intros l Hl Z. apply Hfdl in Hl. destruct Hl as (V & Tw & _). assert (Lf := L2 _ Tw). rewrite !in_app_iff in Z. destruct Z as [Z|[Z|Z]]; [apply R1 in Z; lia|apply Hfll in Z; destruct Z as [-> _]; unfold fl in *; lia|]. destruct (R2 _ Z) as [Z2|[_ Z2]]; [lia|]. rewrite no_default in Z2 by auto. discriminate.
    + intros l Hl. rewrite !in_app_iff in Hl. cbn [existsb]. destruct Hl as [Hl|[Hl|[Hl|Hl]]].
      * apply Hfdl in Hl. destruct Hl as (-> & Tw & _). right. auto.
      * apply R1 in Hl. left. lia.
      * apply Hfll in Hl. destruct Hl as [-> _]. left. unfold fl. lia.
      * destruct (R2 _ Hl) as [Z|[Z1 Z2]]; [left; lia|right; rewrite Z2, orb_true_r; auto].
    + intros fd Tw Uf Ex Fo. rewrite !in_app_iff. destruct v as [v|].
      * cbn [existsb is_def fst orb] in Ex. right. right. right. apply F2; auto.
      * left. apply Hfdl. auto.
    + intros FD l Hl. rewrite in_app_iff in Hl. rewrite !in_app_iff.
      assert (FD' : fdok sw' = true -> forall fd, two sw = Some fd -> existsb is_def cases = true). { unfold sw'. destruct v; [|discriminate]. intros Q fd Q2. exact (FD Q fd Q2). }
      destruct Hl as [Hl|Hl].
      * destruct (Go1 l Hl) as [U X]. split; [apply U2, U|]. destruct X as [X|[X|(br & X)]]; [tauto|discriminate|]. assert (TC := target_case _ _ _ _ _ KD' X). rewrite St2, So in TC. destruct br as [[lb|]|[lb|]| |].
        -- destruct (has lb (lbs sw')); [auto|right; right; eauto].
        -- auto.
        -- right. right. eauto.
        -- right. right. eauto.
        -- left. right. right. left. apply Hfll. subst l. auto.
        -- destruct TC as [Fo Tw]. left. right. right. right. apply F2; auto. exact (FD' Fo l Tw).
      * destruct (Go2 FD' l Hl) as [U X]. tauto.
Qed.
Lemma opt_tr_eq {e k s c s'} : opt_tr (fun y => tr y k) e s = Some (c, s') -> match e, c with None, None => s' = s | Some y, Some d => tr y k s = Some (d, s') | _, _ => False end.
Proof. destruct e as [y|]; cbn [opt_tr]; [destruct (tr y k s) as [[d s1]|]; [|discriminate]|]; intros Q; injection Q as <- <-; reflexivity. Qed.
Lemma ok_two k s s1 s2 a b ga gb : ok_labs k s s1 None a ga -> ok_labs k s1 s2 None b gb -> grows s s1 -> grows s1 s2 -> ok_labs k s s2 None (a ++ b) (ga ++ gb).
Proof.
  intros (N1 & R1 & G1) (N2 & R2 & G2) [X1 Y1] [X2 Y2]. split; [|split].
  - apply nodup_app; auto. intros x A B. apply R1 in A. apply R2 in B. lia.
  - intros l Hl. split; [|discriminate]. rewrite in_app_iff in Hl. destruct Hl as [Hl|Hl]; [apply R1 in Hl|apply R2 in Hl]; lia.
  - intros l Hl. rewrite in_app_iff in *. destruct Hl as [Hl|Hl]; [destruct (G1 l Hl) as [U D]; split; [apply Y2, U|tauto]|destruct (G2 l Hl); split; [auto|tauto]].
Qed.
Lemma ok_lift ls l0 k s s' a g : below k (nxt s) -> l0 = nxt s -> ok_labs (En KBlock ls l0 None true :: k) (more s) s' None a g -> ok_labs k s (set_brk s' (Some l0)) (Some l0) a g.
Proof.
  intros L -> (N1 & R1 & G1). cbn [more nxt] in R1. split; [exact N1|]. split; [intros l Hl; destruct (R1 l Hl); cbn [set_brk nxt]; split; [lia|intros Q; injection Q as <-; lia]|]. intros l Hl. destruct (G1 l Hl) as [U D]. cbn [set_brk used]. split; [exact U|]. destruct D as [D|[D|(br & D)]]; [auto|discriminate|]. destruct (target_block _ _ _ _ _ D) as [(lb & _ & _ & ->)|[_ D']]; [auto|right; right; eauto].
Qed.
Lemma labs_all x : labs x.
Proof.
  induction x as [a|br|ls kids IH|ls c t e IHt IHe|ls isdo c inc b e IHb IHe|ls c cases IH] using stmt_induction; intros k s cd s' W O E B L; cbn [wf one_default] in W, O.
  - cbn [tr] in E. injection E as <- <-. apply ok_nil.
  - cbn [tr] in E. destruct (target k br) as [l|] eqn:Q; [|discriminate]. injection E as <- <-. cbn [labels gotos]. split; [constructor|]. split; [intros ? []|]. intros ? [<-|[]]. cbn [use used In]. split; [auto|]. right. right. eauto.
  - destruct ls as [|l0 ls]; cbn [tr] in E.
    + destruct (fix_block _ kids s) as [[cs s1]|] eqn:E1; [|discriminate]. injection E as <- <-. cbn [labels gotos]. destruct (labs_block kids IH k s cs s1 W O E1 B L) as (N1 & R1 & G1). destruct (block_stat kids (all_stat _) _ _ _ _ E1) as (_ & Bk & _). assert (B1 : brk s1 = None) by (destruct Bk as [Bk|[_ Bk]]; [auto|rewrite Bk; exact B]). rewrite B1. split; auto.
    + destruct (fix_block _ kids (more s)) as [[cs s1]|] eqn:E1; [|discriminate]. injection E as <- <-. cbn [labels gotos]. apply ok_lift with (ls := l0 :: ls); [exact L|reflexivity|]. apply (labs_block kids IH _ _ _ _ W O E1 B). apply below_cons; cbn [more nxt one two]; [eapply below_mono; [exact L|lia]|lia|discriminate].
  - apply andb_true_iff in W, O. destruct W as [W We], O as [Ot Oe]. apply andb_true_iff in W. destruct W as [Wp Wt].
    assert (X : forall k s t' s1 e' s2, brk s = None -> below k (nxt s) -> tr t k s = Some (t', s1) -> opt_tr (fun y => tr y k) e s1 = Some (e', s2) -> brk s2 = None /\ ok_labs k s s2 None (labels (CIf c t' e')) (gotos (CIf c t' e'))).
    { intros k0 s0 t' s1 e' s2 B0 L0 E1 E2. assert (B1 := plain_brk _ _ _ _ _ Wp E1 B0). destruct (tr_stat t _ _ _ _ E1) as [[[G1 U1] _] _]. destruct (labs_opt e k0 s1 e' s2 IHe We Oe E2 B1 (below_mono _ _ _ L0 G1)) as (B2 & G2 & O2). split; [exact B2|]. cbn [labels gotos]. eapply ok_two; [|exact O2|split; auto|exact G2]. rewrite <- B1. exact (IHt _ _ _ _ Wt Ot E1 B0 L0). }
    destruct ls as [|l0 ls]; cbn [tr] in E.
    + destruct (tr t k s) as [[t' s1]|] eqn:E1; [|discriminate]. destruct (opt_tr _ e s1) as [[e' s2]|] eqn:E2; [|discriminate]. injection E as <- <-. destruct (X _ _ _ _ _ _ B L E1 E2) as [B2 Y]. rewrite B2. exact Y.
    + destruct (tr t _ (more s)) as [[t' s1]|] eqn:E1; [|discriminate]. destruct (opt_tr _ e s1) as [[e' s2]|] eqn:E2; [|discriminate]. injection E as <- <-. apply ok_lift with (ls := l0 :: ls); [exact L|reflexivity|]. refine (proj2 (X _ (more s) _ _ _ _ B _ E1 E2)). apply below_cons; cbn [more nxt one two]; [eapply below_mono; [exact L|lia]|lia|discriminate].
  - apply andb_true_iff in W, O. destruct W as [W We], O as [Ob Oe]. apply andb_true_iff in W. destruct W as [Wp Wb]. cbn [tr] in E. destruct (tr b _ (more (more s))) as [[b' s1]|] eqn:E1; [|discriminate]. destruct (opt_tr _ e (take s1)) as [[e' s2]|] eqn:E2; [|discriminate]. injection E as <- <-.
    assert (B1 := plain_brk _ _ _ _ _ Wp E1 B). destruct (tr_stat b _ _ _ _ E1) as [[[G1 U1] _] _]. cbn [more nxt] in G1.
    assert (L2 : below (En KLoop ls (nxt s) (Some (S (nxt s))) true :: k) (nxt (more (more s)))) by (apply below_cons; cbn [more nxt one two]; [eapply below_mono; [exact L|lia]|lia|intros l Q; injection Q as <-; lia]).
    destruct (IHb _ _ _ _ Wb Ob E1 B L2) as (N1 & R1 & Go1). rewrite B1 in *. cbn [more nxt] in R1.
    destruct (labs_opt e k (take s1) e' s2 IHe We Oe E2 eq_refl (below_mono k (nxt s) (nxt (take s1)) L ltac:(cbn [take nxt]; lia))) as (B2 & [G2 U2] & (N2 & R2 & Go2)). cbn [take nxt used] in *.
    cbn [labels gotos set_brk brk].
    set (b'' := if is_used (S (nxt s)) s1 then CBlk [b'; CLab (S (nxt s))] else b'). assert (EG : gotos b'' = gotos b') by (unfold b''; destruct (is_used (S (nxt s)) s1); cbn [gotos flat_map]; rewrite ?app_nil_r; reflexivity).
    assert (EL : labels b'' = labels b' ++ if is_used (S (nxt s)) s1 then [S (nxt s)] else []) by (unfold b''; destruct (is_used (S (nxt s)) s1); cbn [labels flat_map]; rewrite ?app_nil_r; reflexivity). rewrite EG, EL. clear EG EL. clearbody b''.
    assert (Hc : forall l, In l (if is_used (S (nxt s)) s1 then [S (nxt s)] else []) <-> l = S (nxt s) /\ In l (used s1)) by (intros l; destruct (is_used (S (nxt s)) s1) eqn:Q; cbn [In]; [apply used_in in Q; split; [intros [<-|[]]; auto|intros [-> _]; auto]|split; [intros []|]; intros [-> Z]; apply used_in in Z; congruence]).
    split; [|split].
    + apply nodup_app; [apply nodup_app; [exact N1|destruct (is_used (S (nxt s)) s1); repeat constructor; intros []|]|exact N2|].
      * intros l Hl Z. apply Hc in Z. apply R1 in Hl. lia.
      * intros l Hl Z. apply R2 in Z. rewrite in_app_iff in Hl. destruct Hl as [Hl|Hl]; [apply R1 in Hl; lia|apply Hc in Hl; lia].
    + intros l Hl. rewrite !in_app_iff in Hl. cbn [set_brk nxt]. assert (X : nxt s < l < nxt s2). { destruct Hl as [[Hl|Hl]|Hl]; [apply R1 in Hl; lia|apply Hc in Hl; lia|apply R2 in Hl; lia]. } split; [lia|]. destruct (is_used (nxt s) s1); [intros Q; injection Q as <-; lia|discriminate].
    + intros l Hl. rewrite !in_app_iff in *. cbn [set_brk used]. destruct Hl as [Hl|Hl].
      * destruct (Go1 l Hl) as [U D]. split; [apply U2, U|]. destruct D as [D|[D|(br & D)]]; [tauto|discriminate|]. assert (TL := target_loop _ _ _ _ _ _ D). destruct (ends_loop ls (Ex br)) as [[|br']|].
        -- subst l. right. left. rewrite (proj2 (used_in _ _) U). reflexivity.
        -- right. right. exists br. tauto.
        -- left. left. right. apply Hc. auto.
      * destruct (Go2 l Hl) as [U D]. split; [exact U|]. destruct D as [D|[D|D]]; [tauto|discriminate|tauto].
  - apply andb_true_iff in O. destruct O as [Od Oc]. apply Nat.leb_le in Od. cbn [tr] in E. set (fd := if existsb _ cases then Some (S (nxt s)) else None) in *. destruct (fix_cases _ cases _ k (more (more s))) as [[cs s1]|] eqn:E1; [|discriminate]. injection E as <- <-.
    destruct (cases_stat cases (all_stat2 _) _ _ _ _ _ E1) as ([G1 U1] & Bk & _). cbn [more nxt brk used] in *. rewrite (Bk B).
    destruct (labs_cases cases IH _ _ _ _ _ W Oc Od E1 eq_refl B) as (N1 & R1 & _ & Go1); [apply below_cons; cbn [more nxt one two]; [eapply below_mono; [exact L|lia]|lia|unfold fd; destruct (existsb _ cases); intros l Q; [injection Q as <-; lia|discriminate]]|].
    cbn [one two fdok more nxt] in *. assert (FD : true = true -> forall l, fd = Some l -> existsb is_def cases = true) by (intros _ l Q; unfold fd in Q; unfold is_def; destruct (existsb _ cases); [reflexivity|discriminate]). specialize (Go1 FD). clear FD.
    assert (R1' : forall l, In l (flat_map labels (concat (map snd cs))) -> nxt s < l < nxt s1). { intros l Hl. destruct (R1 l Hl) as [Z|[Z _]]; [lia|]. unfold fd in Z. destruct (existsb _ cases); [injection Z as <-; lia|discriminate]. }
    cbn [labels gotos]. rewrite !flat_cases. assert (EL : concat (map snd (if is_used (nxt s) s1 then add_last (nxt s) cs else cs)) = concat (map snd cs) ++ if is_used (nxt s) s1 then [CLab (nxt s)] else []) by (destruct (is_used (nxt s) s1); [apply add_last_concat|rewrite app_nil_r; reflexivity]). rewrite EL, !flat_map_app. clear EL.
    assert (Gt : flat_map gotos (if is_used (nxt s) s1 then [CLab (nxt s)] else []) = []) by (destruct (is_used (nxt s) s1); reflexivity). rewrite Gt, app_nil_r.
    assert (Ht : forall l, In l (flat_map labels (if is_used (nxt s) s1 then [CLab (nxt s)] else [])) <-> l = nxt s /\ In l (used s1)) by (intros l; destruct (is_used (nxt s) s1) eqn:Q; cbn [flat_map labels app In]; [apply used_in in Q; split; [intros [<-|[]]; auto|intros [-> _]; auto]|split; [intros []|]; intros [-> Z]; apply used_in in Z; congruence]).
    split; [|split].
    + apply nodup_app; [exact N1|destruct (is_used (nxt s) s1); repeat constructor; intros []|]. intros l Hl Z. apply Ht in Z. apply R1' in Hl. lia.
    + intros l Hl. split; [|discriminate]. rewrite in_app_iff in Hl. destruct Hl as [Hl|Hl]; [apply R1' in Hl; lia|apply Ht in Hl; lia].
    + intros l Hl. destruct (Go1 l Hl) as [U D]. split; [exact U|]. rewrite in_app_iff, Ht. destruct D as [D|[->|D]]; auto.
Qed.
(** which programs are accepted *)
Definition R (k : list entry) (c : ctx) : Prop := forall b, legal_branch c b = match target k b with Some _ => true | None => false end.
Lemma has_app l a b : has l (a ++ b) = has l a || has l b. Proof. unfold has. apply existsb_app. Qed.
Lemma has_hide l ls m : has l (hide ls m) = negb (has l ls) && has l m.
Proof.
  unfold hide. induction m as [|x m IH]; cbn [filter has existsb]; [rewrite andb_false_r; reflexivity|]. destruct (has x ls) eqn:Q; cbn [negb]; [|cbn [has existsb]]; fold (has l m); fold (has l (filter (fun l0 => negb (has l0 ls)) m)); rewrite IH; destruct (Nat.eqb_spec l x) as [->|Ne]; cbn [orb]; rewrite ?Q; cbn [negb andb orb]; reflexivity.
Qed.
Lemma R_none c k : R k c -> R k (in_block [] c).
Proof. intros H b. rewrite <- H. destruct b as [[l|]|[l|]| |]; cbn [legal_branch in_block in_loop in_break in_case before_default breaks continues app]; try reflexivity. rewrite has_hide. reflexivity. Qed.
Lemma R_block ls x k c : R k c -> R (En KBlock ls x None true :: k) (in_block ls c).
Proof.
  intros H b. specialize (H b). destruct b as [[l|]|[l|]| |]; cbn [legal_branch in_block in_loop in_break in_case before_default breaks continues target find is_loop is_switch is_case kd lbs orb] in *; try exact H.
  - rewrite has_app, H. destruct (has l ls); reflexivity.
  - rewrite has_hide, H. destruct (has l ls); reflexivity.
Qed.
Lemma R_body ls x y k c : R k c -> R (En KLoop ls x (Some y) true :: k) (in_body ls c).
Proof.
  intros H b. specialize (H b). destruct b as [[l|]|[l|]| |]; cbn [legal_branch in_body in_loop in_break in_case before_default breaks continues target find is_loop is_switch is_case kd lbs orb two one option_map] in *; try exact H; try reflexivity.
  - rewrite has_app, H. destruct (has l ls); reflexivity.
  - rewrite has_app, H. destruct (has l ls); reflexivity.
Qed.
Lemma R_clause ls x fl fd ok k c : R k c -> R (En KCase [] fl None true :: En KSwitch ls x fd ok :: k) (in_clause ls (ok && match fd with Some _ => true | None => false end) c).
Proof.
  intros H b. specialize (H b). destruct b as [[l|]|[l|]| |]; cbn [legal_branch in_clause in_loop in_break in_case before_default breaks continues target find is_loop is_switch is_case kd lbs orb two one option_map has existsb fdok] in *; try exact H; try reflexivity.
  - fold (has l (breaks c)) in H. fold (has l (ls ++ breaks c)). fold (has l ls). rewrite has_app, H. destruct (has l ls); reflexivity.
  - fold (has l (continues c)) in H. fold (has l (hide ls (continues c))). fold (has l ls). rewrite has_hide, H. destruct (has l ls); reflexivity.
  - destruct ok, fd; reflexivity.
Qed.
Definition acc (x : stmt) : Prop := forall k s c, R k c -> (exists z, tr x k s = Some z) <-> legal x c = true.
Lemma acc_block kids : Forall acc kids -> forall k s c, R k c -> (exists z, fix_block (fun y => tr y k) kids s = Some z) <-> forallb (fun y => legal y c) kids = true.
Proof.
  induction 1 as [|y kids Hy _ IH]; intros k s c H; cbn [fix_block forallb]; [split; eauto|]. rewrite andb_true_iff. specialize (Hy k s c H). destruct (tr y k s) as [[d s1]|].
  - specialize (IH k (take s1) c H). destruct (fix_block _ kids (take s1)) as [[cs s2]|]; [split; [intros _; split; [apply Hy; eauto|apply IH; eauto]|eauto]|]. split; [intros (z & Z); discriminate|]. intros [_ Z]. apply IH in Z. destruct Z; discriminate.
  - split; [intros (z & Z); discriminate|]. intros [Z _]. apply Hy in Z. destruct Z; discriminate.
Qed.
Lemma acc_opt e k s c : (forall y, e = Some y -> acc y) -> R k c -> (exists z, opt_tr (fun y => tr y k) e s = Some z) <-> match e with Some e => legal e c | None => true end = true.
Proof.
  intros H Rk. destruct e as [y|]; cbn [opt_tr]; [|split; eauto]. specialize (H y eq_refl k s c Rk). destruct (tr y k s) as [[d s1]|]; [split; [intros _; apply H; eauto|eauto]|]. split; [intros (z & Z); discriminate|]. intros Z. apply H in Z. destruct Z; discriminate.
Qed.
Lemma acc_cases ls x cases : Forall (fun z => Forall acc (snd z)) cases -> forall fd ok k s c, R k c ->
  (exists z, fix_cases (fun k' kids => fix_block (fun y => tr y k') kids) cases (En KSwitch ls x fd ok) k s = Some z) <-> legal_clauses (fun before kids => forallb (fun y => legal y (in_clause ls before c)) kids) (ok && match fd with Some _ => true | None => false end) cases = true.
Proof.
  induction 1 as [|[v b] cases Hb _ IH]; intros fd ok k s c H; cbn [fix_cases legal_clauses]; [split; eauto|]. rewrite andb_true_iff. cbv zeta.
  assert (X : match v with Some _ => En KSwitch ls x fd ok | None => En (kd (En KSwitch ls x fd ok)) (lbs (En KSwitch ls x fd ok)) (one (En KSwitch ls x fd ok)) (two (En KSwitch ls x fd ok)) false end = En KSwitch ls x fd (match v with Some _ => ok | None => false end)) by (destruct v; reflexivity). rewrite X. clear X.
  set (ok' := match v with Some _ => ok | None => false end). set (g := fun before kids => forallb (fun y => legal y (in_clause ls before c)) kids) in *.
  assert (EB : ok && match fd with Some _ => true | None => false end && match v with Some _ => true | None => false end = ok' && match fd with Some _ => true | None => false end) by (unfold ok'; destruct v; [rewrite andb_true_r; reflexivity|rewrite andb_false_r; reflexivity]). rewrite EB.
  assert (Hk := R_clause ls x (nxt s) fd ok' k c H). assert (HB := acc_block b Hb _ (more s) _ Hk). cbn [lbs kd one two]. fold (g (ok' && match fd with Some _ => true | None => false end) b) in HB.
  destruct (fix_block _ b (more s)) as [[cs1 s1]|].
  - specialize (IH fd ok' k s1 c H). destruct (fix_cases _ cases _ k s1) as [[cs2 s2]|].
    + split; [intros _; split; [apply HB; eauto|apply IH; eauto]|eauto].
    + split; [intros (z & Z); discriminate|]. intros [_ Z]. apply IH in Z. destruct Z; discriminate.
  - split; [intros (z & Z); discriminate|]. intros [Z _]. apply HB in Z. destruct Z; discriminate.
Qed.
Lemma some_def {A} (cases : list (option Z * A)) : (1 <=? defaults cases) = existsb (fun z => match fst z with None => true | Some _ => false end) cases.
Proof. unfold defaults. induction cases as [|[[v|] b] cases IH]; cbn [filter fst existsb length orb]; auto. Qed.
Lemma acc_all x : acc x.
Proof.
  induction x as [a|br|ls kids IH|ls cn t e IHt IHe|ls isdo cn inc b e IHb IHe|ls cn cases IH] using stmt_induction; intros k s c H; cbn [legal].
  - cbn [tr]. split; eauto.
  - cbn [tr]. rewrite H. destruct (target k br); split; [reflexivity|eauto|intros (z & Z); discriminate|discriminate].
  - destruct ls as [|l0 ls]; cbn [tr].
    + assert (Q := acc_block kids IH k s _ (R_none _ _ H)). rewrite <- Q. destruct (fix_block _ kids s) as [[cs s1]|]; split; eauto; intros (z & Z); discriminate.
    + assert (Q := acc_block kids IH _ (more s) _ (R_block (l0 :: ls) (nxt s) _ _ H)). rewrite <- Q. destruct (fix_block _ kids (more s)) as [[cs s1]|]; split; eauto; intros (z & Z); discriminate.
  - rewrite andb_true_iff. assert (X : forall k s, R k (in_block ls c) -> legal t (in_block ls c) = true /\ match e with Some e => legal e (in_block ls c) | None => true end = true <-> exists t' s1 z, tr t k s = Some (t', s1) /\ opt_tr (fun y => tr y k) e s1 = Some z).
    { intros k0 s0 H0. rewrite <- (IHt k0 s0 _ H0). split.
      - intros [((t' & s1) & Z) W]. apply (acc_opt e k0 s1 _ IHe H0) in W. destruct W as (z & W). exists t', s1, z. auto.
      - intros (t' & s1 & z & Z & W). split; [eauto|]. apply (acc_opt e k0 s1 _ IHe H0). eauto. }
    destruct ls as [|l0 ls]; cbn [tr].
    + rewrite (X k s (R_none _ _ H)). split.
      * intros (z & Z). destruct (tr t k s) as [[t' s1]|]; [|discriminate]. destruct (opt_tr _ e s1) as [[e' s2]|] eqn:Q; [|discriminate]. exists t', s1, (e', s2). auto.
      * intros (t' & s1 & [e' s2] & Z & W). rewrite Z, W. eauto.
    + rewrite (X _ (more s) (R_block (l0 :: ls) (nxt s) _ _ H)). split.
      * intros (z & Z). destruct (tr t _ (more s)) as [[t' s1]|]; [|discriminate]. destruct (opt_tr _ e s1) as [[e' s2]|] eqn:Q; [|discriminate]. exists t', s1, (e', s2). auto.
      * intros (t' & s1 & [e' s2] & Z & W). rewrite Z, W. eauto.
  - rewrite andb_true_iff. cbn [tr]. rewrite <- (IHb _ (more (more s)) _ (R_body ls (nxt s) (S (nxt s)) _ _ H)). split.
    + intros (z & Z). destruct (tr b _ (more (more s))) as [[b' s1]|]; [|discriminate]. split; [eauto|]. apply (acc_opt e k (take s1) c IHe H). destruct (opt_tr _ e (take s1)) as [[e' s2]|]; [eauto|discriminate].
    + intros [((b' & s1) & Z) W]. rewrite Z. apply (acc_opt e k (take s1) c IHe H) in W. destruct W as ((e' & s2) & W). rewrite W. eauto.
  - cbn [tr]. rewrite some_def. set (fd := if existsb _ cases then Some (S (nxt s)) else None). assert (Q := acc_cases ls (nxt s) cases IH fd true k (more (more s)) c H).
    assert (EF : true && match fd with Some _ => true | None => false end = existsb (fun z => match fst z with None => true | Some _ => false end) cases) by (unfold fd; destruct (existsb _ cases); reflexivity). rewrite EF in Q. rewrite <- Q.
    destruct (fix_cases _ cases _ k (more (more s))) as [[cs s1]|]; split; eauto; intros (z & Z); discriminate.
Qed.
(** choose *)
Section Choose.
Context {st : Type}.
Variable acts : nat -> st -> st.
Variable tests : nat -> st -> bool.
Variable vals : nat -> st -> Z.
Notation srun := (srun acts tests vals).
Notation s_one := (s_one acts tests vals).
Lemma clauses_mono (f g : list stmt -> st -> option (res * st)) : (forall b x z, f b x = Some z -> g b x = Some z) -> forall cases skip x z, clauses f skip cases x = Some z -> clauses g skip cases x = Some z.
Proof.
  intros H. induction cases as [|[v b] cases IH]; intros skip x z E; [exact E|]. cbn [clauses] in *. destruct (skip && _); [apply IH, E|]. destruct (f b x) as [[r x1]|] eqn:Q; [|discriminate]. rewrite (H _ _ _ Q). destruct r as [|[[l|]|l| |]]; auto.
Qed.
Lemma s_step n m : (forall kids x z, srun n kids x = Some z -> srun m kids x = Some z) -> forall y x z, s_one n y x = Some z -> s_one m y x = Some z.
Proof.
  intros IH y x z Q. destruct y as [a|br|ls ks|ls c t e|ls isdo c inc b e|ls c cases]; cbn [Proofs.s_one] in *; [exact Q|exact Q| | | |].
  - destruct (srun n ks x) as [z1|] eqn:E; [|discriminate]. rewrite (IH _ _ _ E). exact Q.
  - destruct (tests c x); [destruct (srun n [t] x) as [z1|] eqn:E; [|discriminate]; rewrite (IH _ _ _ E); exact Q|]. destruct e as [e|]; [|exact Q]. destruct (srun n [e] x) as [z1|] eqn:E; [|discriminate]. rewrite (IH _ _ _ E). exact Q.
  - destruct (isdo || tests c x); [|destruct e; [eapply IH; eauto|exact Q]]. destruct (srun n [b] x) as [[r x1]|] eqn:E; [|discriminate]. rewrite (IH _ _ _ E). destruct (ends_loop ls r); [exact Q|]. eapply IH; eauto.
  - destruct (clauses (srun n) false (select (vals c x) cases) x) as [z1|] eqn:E; [|discriminate]. rewrite (clauses_mono (srun n) (srun m) IH _ _ _ _ E). exact Q.
Qed.
Lemma srun_mono n : forall m kids x z, n <= m -> srun n kids x = Some z -> srun m kids x = Some z.
Proof.
  induction n as [|n IH]; intros m kids x z L H; [discriminate|]. destruct m as [|m]; [lia|]. assert (L' : n <= m) by lia. destruct kids as [|y kids]; [exact H|]. rewrite srun_S in *.
  destruct (s_one n y x) as [[[|b] x1]|] eqn:Q; [| |discriminate]; rewrite (s_step n m (fun kids x z => IH m kids x z L') _ _ _ Q); [eapply IH; eauto|exact H].
Qed.
Lemma srun_app n : forall a b x x1 z m, srun n a x = Some (Go, x1) -> srun m b x1 = Some z -> exists q, srun q (a ++ b) x = Some z.
Proof.
  induction n as [|n IH]; intros a b x x1 z m H E; [discriminate|]. destruct a as [|y a]; [injection H as <-; exists m; exact E|]. rewrite srun_S in H. destruct (s_one n y x) as [[[|br] x2]|] eqn:Q; [|discriminate|discriminate]. destruct (IH a b x2 x1 z m H E) as (q & R2). exists (S (n + q)). cbn [app]. rewrite srun_S.
  rewrite (s_step n (n + q) (fun kids x z => srun_mono n (n + q) kids x z ltac:(lia)) _ _ _ Q). eapply srun_mono; [|exact R2]. lia.
Qed.
Lemma choose_case ls c cases v b r n x x1 : select (vals c x) cases = (v, Some b) :: r -> srun n b x = Some (Go, x1) -> exists m, srun m [choose ls c cases] x = Some (Go, x1).
Proof.
  intros Hs H. destruct (srun_app n b [Br (B None)] x x1 (Ex (B None), x1) 1 H eq_refl) as (q & Q). exists (S (S q)). unfold choose. rewrite srun_S. cbn [Proofs.s_one].
  set (h := fun o : option (list stmt) => match o with Some b0 => b0 ++ [Br (B None)] | None => [] end). change (map _ cases) with (map (fun z => (fst z, h (snd z))) cases). assert (F : forall A C (h0 : A -> C) p (l : list (option Z * A)), from p (map (fun z => (fst z, h0 (snd z))) l) = option_map (map (fun z => (fst z, h0 (snd z)))) (from p l)) by (intros A C h0 p l; induction l as [|[w d] l IHl]; [reflexivity|]; cbn [map fst snd from]; destruct (p w); [reflexivity|exact IHl]).
  assert (X : select (vals c x) (map (fun z => (fst z, h (snd z))) cases) = map (fun z => (fst z, h (snd z))) (select (vals c x) cases)) by (unfold select; rewrite !F; destruct (from (is_val (vals c x)) cases); [reflexivity|]; cbn [option_map]; destruct (from _ cases); reflexivity).
  rewrite X, Hs. cbn [map fst snd clauses andb]. unfold h at 1. rewrite (srun_mono q (S q) _ _ _ ltac:(lia) Q). reflexivity.
Qed.
End Choose.
