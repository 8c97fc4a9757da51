From Coq Require Import List Bool Arith Lia.
From Verif.Typedefs Require Import Model Spec.
Import ListNotations.
Lemma ext_ind2 (P : ext -> Prop) : (forall n, P (Use n)) -> (forall n, P (Typedef n)) -> (forall n f, P (Agg n f)) -> (forall f l, Forall P l -> P (Dist f l)) -> (forall l, P (Func l)) -> forall i, P i.
Proof. intros H1 H2 H3 H4 H5. fix IH 1. intros [n|n|n f|f l|l]; [apply H1|apply H2|apply H3|apply H4; induction l; constructor; auto|apply H5]. Qed.
Lemma loc_ind2 (P : loc -> Prop) : (forall n, P (Luse n)) -> (forall n, P (Ltypedef n)) -> (forall n f, P (Lagg n f)) -> (forall l, Forall P l -> P (Lblock l)) -> forall i, P i.
Proof. intros H1 H2 H3 H4. fix IH 1. intros [n|n|n f|l]; [apply H1|apply H2|apply H3|apply H4; induction l; constructor; auto]. Qed.
Lemma run_dist f l s : run (Dist f l) s = bind (bind (up f (enter s)) (runs l)) (fun s => leave (down s)). Proof. reflexivity. Qed.
Lemma runs_cons i l s : runs (i :: l) s = bind (run i s) (runs l). Proof. reflexivity. Qed.
Lemma run_block l s : run_loc (Lblock l) s = bind (run_locs l (enter s)) leave. Proof. reflexivity. Qed.
Lemma run_locs_cons i l s : run_locs (i :: l) s = bind (run_loc i s) (run_locs l). Proof. reflexivity. Qed.
Lemma lex_dist g f l e : lex g (Dist f l) e = lexs (f || g) l e. Proof. reflexivity. Qed.
Lemma lexs_cons g i l e : lexs g (i :: l) e = let (e, a) := lex g i e in let (e, b) := lexs g l e in (e, a ++ b). Proof. reflexivity. Qed.
Lemma lex_locs_cons i l e : lex_locs (i :: l) e = let (e, a) := lex_loc i e in let (e, b) := lex_locs l e in (e, a ++ b). Proof. reflexivity. Qed.
(** the scopes of d nested distribution blocks over the file's *)
Fixpoint stack (ds : list bool) (e : env) : list scope := match ds with [] => [(e, (0, false))] | f :: ds => ([], (S (length ds), f)) :: stack ds e end.
Definition top (ds : list bool) : bool := match ds with [] => false | f :: _ => f end.
Lemma stack_head ds e : exists m l, stack ds e = (m, (length ds, top ds)) :: l. Proof. destruct ds; eexists; eexists; reflexivity. Qed.
Lemma stack_find ds e n : find n (stack ds e) = look n e.
Proof. induction ds as [|f ds IH]; cbn [stack find]; [destruct (look n e); reflexivity|]. exact IH. Qed.
Lemma stack_put ds e n k : put (length ds) n k (stack ds e) = Some (stack ds ((n, k) :: e)).
Proof. induction ds as [|f ds IH]; cbn [stack length put]; [reflexivity|]. rewrite IH. reflexivity. Qed.
Lemma leave_stack ds e h v g : leave (St (h :: stack ds e) v g) = Some (St (stack ds e) v g).
Proof. destruct (stack_head ds e) as [m [l E]]. unfold leave. cbn [scopes level log]. rewrite E. reflexivity. Qed.
Lemma add_stack ds e h n k v g : add_enclosing n k (St (h :: stack ds e) v g) = Some (St (h :: stack ds ((n, k) :: e)) v g).
Proof.
  destruct (stack_head ds e) as [m [l E]]. unfold add_enclosing. cbn [scopes]. rewrite E at 1. cbn [scopes level log]. destruct h as [hm ht].
  change (put (S (length ds)) n k ((hm, ht) :: stack ds e)) with (option_map (cons (hm, ht)) (put (length ds) n k (stack ds e))). rewrite stack_put. reflexivity.
Qed.
Lemma encl_stack ds e h v g : encl_forall (St (h :: stack ds e) v g) = Some (top ds).
Proof. destruct (stack_head ds e) as [m [l E]]. unfold encl_forall. cbn [scopes]. rewrite E. reflexivity. Qed.
(** local declarations change only the block and the scope around it *)
Lemma look_app n a b : look n (a ++ b) = match look n a with Some k => Some k | None => look n b end.
Proof. induction a as [|[x k] a IH]; [reflexivity|]. cbn [app look]. destruct (n =? x); [reflexivity|exact IH]. Qed.
Lemma loc_frame : forall i b g0 e g l v o, exists b' e' o', run_loc i (St ((b, (0, g0)) :: (e, (0, g)) :: l) v o) = Some (St ((b', (0, g0)) :: (e', (0, g)) :: l) v o').
Proof.
  induction i as [n|n|n f|ls IH] using loc_ind2; intros b g0 e g l v o.
  - eexists. eexists. eexists. reflexivity.
  - eexists. eexists. eexists. reflexivity.
  - cbn [run_loc]. unfold agg, encl_forall. cbn [scopes bind]. unfold make_typedef. destruct (exists_ _ _); eexists; eexists; eexists; reflexivity.
  - rewrite run_block. unfold enter. cbn [scopes level log].
    assert (K : forall b g0 e g l v o, exists b' e' o', run_locs ls (St ((b, (0, g0)) :: (e, (0, g)) :: l) v o) = Some (St ((b', (0, g0)) :: (e', (0, g)) :: l) v o')).
    { clear - IH. induction IH as [|i ls Hi Hl IHl]; intros b g0 e g l v o; [eexists; eexists; eexists; reflexivity|]. rewrite run_locs_cons. destruct (Hi b g0 e g l v o) as [b' [e' [o' ->]]]. cbn [bind]. apply IHl. }
    destruct (K [] false b g0 ((e, (0, g)) :: l) v o) as [b' [e' [o' E]]]. rewrite E. cbn [bind]. unfold leave. cbn [scopes level log]. eexists. eexists. eexists. reflexivity.
Qed.
Lemma locs_frame ls : forall b g0 e g l v o, exists b' e' o', run_locs ls (St ((b, (0, g0)) :: (e, (0, g)) :: l) v o) = Some (St ((b', (0, g0)) :: (e', (0, g)) :: l) v o').
Proof. induction ls as [|i ls IH]; intros b g0 e g l v o; [eexists; eexists; eexists; reflexivity|]. rewrite run_locs_cons. destruct (loc_frame i b g0 e g l v o) as [b' [e' [o' ->]]]. cbn [bind]. apply IH. Qed.
(** bodies without inner blocks *)
Lemma flat_locs ds e0 : forall ls a v o, Forall flat_loc ls -> exists a',
  run_locs ls (St (([], (0, false)) :: (a, (0, false)) :: stack ds e0) v o) = Some (St (([], (0, false)) :: (a', (0, false)) :: stack ds e0) v (o ++ snd (lex_locs ls (a ++ e0)))).
Proof.
  induction ls as [|i ls IH]; intros a v o H; [exists a; cbn [run_locs lex_locs snd]; rewrite app_nil_r; reflexivity|]. inversion H as [|? ? H1 H2]. subst. rewrite run_locs_cons, lex_locs_cons.
  assert (F : forall n, find n (([], (0, false)) :: (a, (0, false)) :: stack ds e0) = look n (a ++ e0)) by (intros n; cbn [find look]; rewrite stack_find, look_app; reflexivity).
  destruct i as [n|n|n f|l]; [| | |destruct H1]; cbn [run_loc lex_loc].
  - cbn [bind]. unfold use, is_kind. cbn [scopes level log]. rewrite F. destruct (IH a v (o ++ [kind_in (a ++ e0) n]) H2) as [a' E]. exists a'. fold (kind_in (a ++ e0) n).
    rewrite E. destruct (lex_locs ls (a ++ e0)) as [e1 b]. cbn [snd]. rewrite <- app_assoc. reflexivity.
  - unfold add_enclosing. cbn [scopes put option_map bind level log]. destruct (IH ((n, typedefname) :: a) v o H2) as [a' E]. exists a'. rewrite E. cbn [app]. destruct (lex_locs ls ((n, typedefname) :: a ++ e0)). reflexivity.
  - unfold agg, encl_forall. cbn [scopes bind]. rewrite orb_false_r. unfold make_typedef, exists_. cbn [scopes]. rewrite F. unfold known. fold (agg_kind f). destruct (look n (a ++ e0)).
    + cbn [bind]. destruct (IH a v o H2) as [a' E]. exists a'. rewrite E. destruct (lex_locs ls (a ++ e0)). reflexivity.
    + unfold add_enclosing. cbn [scopes put option_map bind level log]. destruct (IH ((n, agg_kind f) :: a) v o H2) as [a' E]. exists a'. rewrite E. cbn [app]. destruct (lex_locs ls ((n, agg_kind f) :: a ++ e0)). reflexivity.
Qed.
(** file scope: what external definitions do to the environment, whatever the bodies *)
Definition same_env (i : ext) : Prop := forall ds e v o, v = length ds -> exists o', run i (St (stack ds e) v o) = Some (St (stack ds (fst (lex (top ds) i e))) v o') /\ (flat i -> o' = o ++ snd (lex (top ds) i e)).
Lemma runs_env : forall l, Forall same_env l -> forall ds e v o, v = length ds ->
  exists o', runs l (St (stack ds e) v o) = Some (St (stack ds (fst (lexs (top ds) l e))) v o') /\ (fold_right (fun i P => flat i /\ P) True l -> o' = o ++ snd (lexs (top ds) l e)).
Proof.
  intros l H. induction H as [|i l Hi Hl IH]; intros ds e v o Hv; [exists o; split; [reflexivity|intros _; cbn [lexs snd]; rewrite app_nil_r; reflexivity]|].
  rewrite runs_cons, lexs_cons. destruct (Hi ds e v o Hv) as [o1 [E1 F1]]. rewrite E1. cbn [bind]. destruct (lex (top ds) i e) as [e1 a]. cbn [fst snd] in *.
  destruct (IH ds e1 v o1 Hv) as [o2 [E2 F2]]. rewrite E2. destruct (lexs (top ds) l e1) as [e2 b]. cbn [fst snd] in *. exists o2. split; [reflexivity|]. cbn [fold_right]. intros [G1 G2]. rewrite F2, F1 by assumption. rewrite app_assoc. reflexivity.
Qed.
Lemma run_env : forall i, same_env i.
Proof.
  induction i as [n|n|n f|f l IH|ls] using ext_ind2; intros ds e v o Hv.
  - cbn [run lex fst snd]. unfold use, enter, is_kind. cbn [scopes level log find look]. rewrite leave_stack, stack_find. eexists. split; [reflexivity|]. intros _. reflexivity.
  - cbn [run lex fst snd]. unfold enter. cbn [scopes level log]. rewrite add_stack. cbn [bind]. rewrite leave_stack. exists o. split; [reflexivity|]. intros _. rewrite app_nil_r. reflexivity.
  - cbn [run lex fst snd]. unfold enter. cbn [scopes level log]. unfold agg. rewrite encl_stack. cbn [bind]. unfold make_typedef, exists_, known. cbn [scopes find look]. rewrite stack_find. exists o.
    destruct (look n e); cbn [bind]; [rewrite leave_stack|rewrite add_stack; cbn [bind]; rewrite leave_stack]; (split; [reflexivity|intros _; rewrite app_nil_r; reflexivity]).
  - rewrite run_dist, lex_dist. unfold enter. cbn [scopes level log]. unfold up. rewrite encl_stack. cbn [scopes level log bind]. subst v.
    change (([], (S (length ds), f || top ds)) :: stack ds e) with (stack ((f || top ds) :: ds) e).
    destruct (runs_env l IH ((f || top ds) :: ds) e (S (length ds)) o eq_refl) as [o' [E F]]. rewrite E. cbn [bind top]. unfold down. cbn [scopes level log stack pred]. rewrite leave_stack. exists o'. split; [reflexivity|]. exact F.
  - change (run (Func ls) (St (stack ds e) v o)) with (bind (run_loc (Lblock ls) (enter (St (stack ds e) v o))) leave). rewrite run_block. unfold enter. cbn [scopes level log lex fst snd].
    destruct (locs_frame ls [] false [] false (stack ds e) v o) as [b' [a' [o' E]]]. rewrite E. cbn [bind]. unfold leave at 1. cbn [scopes level log bind]. rewrite leave_stack. exists o'. split; [reflexivity|]. intros Hf.
    destruct (flat_locs ds e ls [] v o Hf) as [a2 E2]. rewrite E2 in E. injection E as _ _ <-. reflexivity.
Qed.
(** the repair *)
Lemma lex_block l e : lex_loc (Lblock l) e = (e, snd (lex_locs l e)). Proof. reflexivity. Qed.
Lemma fix_block l s : fix_loc (Lblock l) s = bind (fix_locs l (enter s)) leave. Proof. reflexivity. Qed.
Lemma fix_locs_cons i l s : fix_locs (i :: l) s = bind (fix_loc i s) (fix_locs l). Proof. reflexivity. Qed.
Definition fix_ok (i : loc) : Prop := forall b h l e v o, (forall n, find n (h :: l) = look n e) -> exists b',
  fix_loc i (St ((b, (0, false)) :: h :: l) v o) = Some (St ((b', (0, false)) :: h :: l) v (o ++ snd (lex_loc i (b ++ e)))) /\ b' ++ e = fst (lex_loc i (b ++ e)).
Lemma fix_locs_ok ls : Forall fix_ok ls -> forall b h l e v o, (forall n, find n (h :: l) = look n e) -> exists b',
  fix_locs ls (St ((b, (0, false)) :: h :: l) v o) = Some (St ((b', (0, false)) :: h :: l) v (o ++ snd (lex_locs ls (b ++ e)))) /\ b' ++ e = fst (lex_locs ls (b ++ e)).
Proof.
  intros H. induction H as [|i ls Hi Hl IH]; intros b h l e v o F; [exists b; cbn [fix_locs lex_locs fst snd]; rewrite app_nil_r; split; reflexivity|].
  rewrite fix_locs_cons, lex_locs_cons. destruct (Hi b h l e v o F) as [b1 [E1 G1]]. rewrite E1. cbn [bind]. destruct (lex_loc i (b ++ e)) as [e1 x]. cbn [fst snd] in *.
  destruct (IH b1 h l e v (o ++ x) F) as [b2 [E2 G2]]. rewrite E2. rewrite G1 in *. destruct (lex_locs ls e1) as [e2 y]. cbn [fst snd] in *. exists b2. rewrite <- app_assoc. split; [reflexivity|exact G2].
Qed.
Lemma find_cons n b t h l e : find n (h :: l) = look n e -> find n ((b, t) :: h :: l) = look n (b ++ e).
Proof. intros H. rewrite look_app, <- H. reflexivity. Qed.
Lemma fix_loc_ok : forall i, fix_ok i.
Proof.
  induction i as [n|n|n f|ls IH] using loc_ind2; intros b h l e v o F.
  - exists b. cbn [fix_loc lex_loc fst snd]. unfold use, is_kind. cbn [scopes level log]. rewrite (find_cons n b (0, false) h l e (F n)). split; reflexivity.
  - exists ((n, typedefname) :: b). cbn [lex_loc fst snd]. rewrite app_nil_r. split; reflexivity.
  - cbn [fix_loc lex_loc fst snd]. rewrite app_nil_r. unfold agg, encl_forall, enter. cbn [scopes level log bind]. rewrite orb_false_r. unfold make_typedef, exists_. cbn [scopes].
    change (find n (([], (0, false)) :: (b, (0, false)) :: h :: l)) with (find n ((b, (0, false)) :: h :: l)). rewrite (find_cons n b (0, false) h l e (F n)). unfold known.
    destruct (look n (b ++ e)); [exists b|exists ((n, agg_kind f) :: b)]; split; reflexivity.
  - exists b. rewrite fix_block, lex_block. unfold enter. cbn [scopes level log fst snd].
    destruct (fix_locs_ok ls IH [] (b, (0, false)) (h :: l) (b ++ e) v o (fun n => find_cons n b (0, false) h l e (F n))) as [b' [E _]]. rewrite E. split; reflexivity.
Qed.
Lemma fix_runs_cons i l s : fix_runs (i :: l) s = bind (fix_run i s) (fix_runs l). Proof. reflexivity. Qed.
Definition fix_same (i : ext) : Prop := forall ds e v o, v = length ds -> fix_run i (St (stack ds e) v o) = Some (St (stack ds (fst (lex (top ds) i e))) v (o ++ snd (lex (top ds) i e))).
Lemma fix_runs_env : forall l, Forall fix_same l -> forall ds e v o, v = length ds ->
  fix_runs l (St (stack ds e) v o) = Some (St (stack ds (fst (lexs (top ds) l e))) v (o ++ snd (lexs (top ds) l e))).
Proof.
  intros l H. induction H as [|i l Hi Hl IH]; intros ds e v o Hv; [cbn [fix_runs lexs fst snd]; rewrite app_nil_r; reflexivity|].
  rewrite fix_runs_cons, lexs_cons, (Hi ds e v o Hv). cbn [bind]. destruct (lex (top ds) i e) as [e1 a]. cbn [fst snd]. rewrite (IH ds e1 v (o ++ a) Hv). destruct (lexs (top ds) l e1) as [e2 b]. cbn [fst snd]. rewrite app_assoc. reflexivity.
Qed.
Lemma fix_run_env : forall i, fix_same i.
Proof.
  induction i as [n|n|n f|f l IH|ls] using ext_ind2; intros ds e v o Hv.
  - destruct (run_env (Use n) ds e v o Hv) as [o' [E F]]. rewrite <- (F I). exact E.
  - destruct (run_env (Typedef n) ds e v o Hv) as [o' [E F]]. rewrite <- (F I). exact E.
  - destruct (run_env (Agg n f) ds e v o Hv) as [o' [E F]]. rewrite <- (F I). exact E.
  - change (fix_run (Dist f l) (St (stack ds e) v o)) with (bind (bind (up f (enter (St (stack ds e) v o))) (fix_runs l)) (fun s => leave (down s))). rewrite lex_dist. unfold enter. cbn [scopes level log]. unfold up. rewrite encl_stack. cbn [scopes level log bind]. subst v.
    change (([], (S (length ds), f || top ds)) :: stack ds e) with (stack ((f || top ds) :: ds) e).
    rewrite (fix_runs_env l IH ((f || top ds) :: ds) e (S (length ds)) o eq_refl). cbn [bind top]. unfold down. cbn [scopes level log stack pred]. apply leave_stack.
  - change (fix_run (Func ls) (St (stack ds e) v o)) with (bind (fix_loc (Lblock ls) (enter (St (stack ds e) v o))) leave). rewrite fix_block. unfold enter. cbn [scopes level log lex fst snd].
    destruct (fix_locs_ok ls (proj2 (Forall_forall _ _) (fun i _ => fix_loc_ok i)) [] ([], (0, false)) (stack ds e) e v o (fun n => stack_find ds e n)) as [b' [E _]]. rewrite E. cbn [bind app]. unfold leave at 1. cbn [scopes level log bind]. apply leave_stack.
Qed.
