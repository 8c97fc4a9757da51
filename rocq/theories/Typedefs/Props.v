From Coq Require Import List Bool Arith Lia.
From Verif.Typedefs Require Import Model Spec Proofs.
Import ListNotations.
(** Any program is parsed without an index out of range, the scopes and the level return to those of the start, and the names of the file are those of lexical scoping: nothing local gets out. *)
Theorem C121_file : forall l, exists o, runs l init = Some (St [(fst (lexs false l []), (0, false))] 0 o).
Proof.
  intros l. destruct (runs_env l (proj2 (Forall_forall _ _) (fun i _ => run_env i)) [] [] 0 [] eq_refl) as [o [E _]]. exists o. exact E.
Qed.
Print Assumptions C121_file.
(** When function bodies have no inner blocks every use has the kind of lexical scoping. *)
Theorem C121_uses : forall l, Forall flat l -> runs l init = Some (St [(fst (lexs false l []), (0, false))] 0 (snd (lexs false l []))).
Proof.
  intros l H. destruct (runs_env l (proj2 (Forall_forall _ _) (fun i _ => run_env i)) [] [] 0 [] eq_refl) as [o [E F]]. cbn [top app] in F. rewrite <- F; [exact E|]. clear - H. induction H; cbn [fold_right]; auto.
Qed.
Print Assumptions C121_uses.
(** A distribution block without a forall is transparent: its definitions could stand in its place. *)
Lemma lexs_app g a : forall b e, lexs g (a ++ b) e = let (e, x) := lexs g a e in let (e, y) := lexs g b e in (e, x ++ y).
Proof.
  induction a as [|i a IH]; intros b e; [cbn [app lexs]; destruct (lexs g b e); reflexivity|]. cbn [app]. rewrite !lexs_cons. destruct (lex g i e) as [e1 x]. rewrite IH. destruct (lexs g a e1) as [e2 y]. destruct (lexs g b e2) as [e3 z]. rewrite app_assoc. reflexivity.
Qed.
Lemma flat_dist f l : Forall flat l -> flat (Dist f l).
Proof. intros H. cbn [flat]. induction H; cbn [fold_right]; auto. Qed.
Theorem C121_transparent : forall a l b, Forall flat a -> Forall flat l -> Forall flat b -> runs (a ++ Dist false l :: b) init = runs (a ++ l ++ b) init.
Proof.
  intros a l b Ha Hl Hb. rewrite C121_uses by (apply Forall_app; split; [exact Ha|constructor; [apply flat_dist; exact Hl|exact Hb]]). rewrite C121_uses by (rewrite !Forall_app; auto).
  assert (E : forall e, lexs false (Dist false l :: b) e = lexs false (l ++ b) e) by (intros e; rewrite lexs_app, lexs_cons, lex_dist; reflexivity).
  rewrite !lexs_app. destruct (lexs false a []) as [e x]. rewrite E. reflexivity.
Qed.
Print Assumptions C121_transparent.
(** An aggregate in nested distribution blocks is a generic type when it or any of the blocks around it has a forall, at any depth, and a type otherwise. *)
Lemma nest_lex n f : forall fs g e, look n e = None -> lex g (nest fs (Agg n f)) e = ((n, agg_kind (f || existsb (fun b => b) fs || g)) :: e, []).
Proof.
  induction fs as [|h fs IH]; intros g e H; [cbn [nest fold_right lex existsb]; unfold known; rewrite H, orb_false_r; reflexivity|].
  change (nest (h :: fs) (Agg n f)) with (Dist h [nest fs (Agg n f)]). rewrite lex_dist, lexs_cons, IH by exact H. cbn [lexs existsb app]. do 4 f_equal. destruct f, h, g, (existsb (fun b => b) fs); reflexivity.
Qed.
Lemma nest_flat n f fs : flat (nest fs (Agg n f)).
Proof. induction fs as [|h fs IH]; [exact I|]. split; [exact IH|exact I]. Qed.
Theorem C121_generic : forall fs n f, option_map log (runs [nest fs (Agg n f); Use n] init) = Some [if f || existsb (fun b => b) fs then typegenname else typedefname].
Proof.
  intros fs n f. rewrite C121_uses by (constructor; [apply nest_flat|constructor; [exact I|constructor]]). cbn [option_map log]. rewrite lexs_cons, nest_lex by reflexivity. rewrite orb_false_r. cbn [lexs lex kind_in look snd app]. unfold kind_in. cbn [look]. rewrite Nat.eqb_refl. reflexivity.
Qed.
Print Assumptions C121_generic.
(** The forall of a distribution block ends with the block. *)
Theorem C121_forall_ends : forall f l n, Forall flat l -> known (fst (lexs f l [])) n = false ->
  exists o, option_map log (runs [Dist f l; Agg n false; Use n] init) = Some (o ++ [typedefname]).
Proof.
  intros f l n Hl Hk. rewrite C121_uses by (constructor; [apply flat_dist; exact Hl|repeat constructor]). cbn [option_map log]. rewrite lexs_cons, lex_dist, orb_false_r. destruct (lexs f l []) as [e x]. cbn [fst] in Hk.
  cbn [lexs lex orb]. rewrite Hk. exists x. cbn [snd app]. unfold kind_in. cbn [look]. rewrite Nat.eqb_refl. reflexivity.
Qed.
Print Assumptions C121_forall_ends.
(** A local declaration reaches at most one scope out of the block it is in: the scopes further out stay. *)
Theorem C121_local : forall ls b g0 e g l v o, exists b' e' o', run_locs ls (St ((b, (0, g0)) :: (e, (0, g)) :: l) v o) = Some (St ((b', (0, g0)) :: (e', (0, g)) :: l) v o').
Proof. exact locs_frame. Qed.
Print Assumptions C121_local.
(** But it does reach that one: a typedef in an inner block is still a type name after the block, whatever the name was before. *)
Theorem C121_leak : forall n b e g0 g l v o,
  option_map log (run_locs [Lblock [Ltypedef n]; Luse n] (St ((b, (0, g0)) :: (e, (0, g)) :: l) v o)) = Some (o ++ [typedefname]).
Proof. intros n b e g0 g l v o. cbn. unfold is_kind. cbn [scopes find look]. rewrite Nat.eqb_refl. reflexivity. Qed.
Print Assumptions C121_leak.
(** { { typedef int T; } T } : the use sees a type name; lexically T is an identifier. *)
Theorem C121_block_refuted : exists l s, runs l init = Some s /\ log s <> snd (lexs false l []).
Proof. exists [Func [Lblock [Ltypedef 5]; Luse 5]]. eexists. split; [vm_compute; reflexivity|]. vm_compute. discriminate. Qed.
Print Assumptions C121_block_refuted.
(** With a scope for each declaration in a block, as at file level, every use in every program has its lexical kind. *)
Theorem C121_repaired : forall l, fix_runs l init = Some (St [(fst (lexs false l []), (0, false))] 0 (snd (lexs false l []))).
Proof. intros l. exact (fix_runs_env l (proj2 (Forall_forall _ _) (fun i _ => fix_run_env i)) [] [] 0 [] eq_refl). Qed.
Print Assumptions C121_repaired.
Example repaired : option_map log (fix_runs [Func [Lblock [Ltypedef 5; Luse 5]; Luse 5]; Use 5] init) = Some [typedefname; identifier; identifier]. Proof. reflexivity. Qed.
Example leak : option_map log (runs [Func [Lblock [Ltypedef 5]; Luse 5]; Use 5] init) = Some [typedefname; identifier]. Proof. reflexivity. Qed.
Example leak_one : option_map log (runs [Func [Lblock [Lblock [Ltypedef 5]; Luse 5]; Luse 5]] init) = Some [typedefname; identifier]. Proof. reflexivity. Qed.
Example dist : option_map log (runs [Dist true [Dist false [Agg 3 false; Typedef 4]]; Use 3; Use 4; Agg 6 false; Use 6] init) = Some [typegenname; typedefname; typedefname]. Proof. reflexivity. Qed.
Example first_wins : option_map log (runs [Agg 3 true; Agg 3 false; Use 3; Typedef 3; Use 3] init) = Some [typegenname; typedefname]. Proof. reflexivity. Qed.
