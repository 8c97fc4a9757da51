From Coq Require Import List Bool Arith Lia.
From Verif.JumpCheck Require Import Model Spec.
Import ListNotations.
Section StmtInd.
Variable P : stmt -> Prop.
Hypothesis H1 : forall ls x, P (Decl ls x).
Hypothesis H2 : forall ls, P (Simple ls).
Hypothesis H3 : forall ls b, Forall P b -> P (Block ls b).
Hypothesis H4 : forall ls a b, Forall P a -> Forall P b -> P (If ls a b).
Hypothesis H5 : forall ls b, Forall P b -> P (Loop ls b).
Hypothesis H6 : forall ls l, P (Goto ls l).
Hypothesis H7 : forall ls, P (Comp ls).
Hypothesis H8 : forall ls, P (Ret ls).
Hypothesis H9 : forall ls b, Forall P b -> P (Fun ls b).
Fixpoint stmt_ind' (x : stmt) : P x :=
  let go := fix go l : Forall P l := match l with [] => Forall_nil P | y :: r => Forall_cons y (stmt_ind' y) (go r) end in
  match x with
  | Decl ls o => H1 ls o | Simple ls => H2 ls | Block ls b => H3 ls b (go b) | If ls a b => H4 ls a b (go a) (go b) | Loop ls b => H5 ls b (go b)
  | Goto ls l => H6 ls l | Comp ls => H7 ls | Ret ls => H8 ls | Fun ls b => H9 ls b (go b)
  end.
End StmtInd.
Lemma all_stmt (P : stmt -> Prop) l : (forall x, P x) -> Forall P l.
Proof. intros H. apply Forall_forall. auto. Qed.
Lemma own_app p q : own (p ++ q) = own p ++ own q.
Proof. apply flat_map_app. Qed.
Lemma own_cons x q : own (x :: q) = own [x] ++ own q.
Proof. unfold own. cbn [flat_map]. now rewrite app_nil_r. Qed.
(** The label finder *)
Definition FF (b : list stmt) (s : list nat * lmap) := fold_left (fun s y => finder y s) b s.
Definition RL (cur : list nat) (b : list stmt) : lmap := snd (FF b (cur, [])).
Definition rc (x : stmt) (cur : list nat) : lmap := snd (finder x (cur, [])).
Lemma finder_cur x cur v : fst (finder x (cur, v)) = cur ++ own [x].
Proof. destruct x; cbn; rewrite ?app_nil_r; reflexivity. Qed.
Lemma finder_split x cur v : finder x (cur, v) = (cur ++ own [x], snd (finder x (cur, v))).
Proof. rewrite <- (finder_cur x cur v). now destruct (finder x (cur, v)). Qed.
Lemma in_record e ls cur : forall v, In e (record ls cur v) <-> (In (fst e) ls /\ snd e = cur) \/ In e v.
Proof.
  unfold record. destruct e as [l c]. cbn [fst snd]. induction ls as [|k ls IH]; intros v; cbn [fold_left In]; [tauto|]. rewrite IH. cbn [In]. split.
  - intros [[A B]|[E|A]]; [tauto| |tauto]. injection E as -> ->. tauto.
  - intros [[[->|A] ->]|A]; tauto.
Qed.
Definition inner (e : nat * list nat) (x : stmt) (cur : list nat) : Prop :=
  match x with Block _ b | Loop _ b => In e (RL cur b) | If _ a b => In e (RL cur a) \/ In e (RL cur b) | _ => False end.
Lemma FF_cons x b s : FF (x :: b) s = FF b (finder x s).
Proof. reflexivity. Qed.
Lemma list_rc b : Forall (fun x => forall e cur v, In e (snd (finder x (cur, v))) <-> ((In (fst e) (labels x) /\ snd e = cur) \/ inner e x cur) \/ In e v) b ->
  forall e cur v, In e (snd (FF b (cur, v))) <-> In e (RL cur b) \/ In e v.
Proof.
  unfold RL. induction 1 as [|x b Hx _ IH]; intros e cur v; [cbn; tauto|]. rewrite !FF_cons.
  rewrite (finder_split x cur v), (finder_split x cur []). rewrite IH, (IH e _ (snd (finder x (cur, [])))). rewrite Hx, (Hx e cur []). cbn [In]. tauto.
Qed.
Lemma finder_in x : forall e cur v, In e (snd (finder x (cur, v))) <-> ((In (fst e) (labels x) /\ snd e = cur) \/ inner e x cur) \/ In e v.
Proof.
  induction x using stmt_ind'; intros e cur v; cbn [finder snd labels inner].
  1, 2, 6, 7, 8, 9: rewrite in_record; tauto.
  - fold (FF b (cur, record ls cur v)). rewrite (list_rc b H), in_record. tauto.
  - fold (FF a (cur, record ls cur v)). fold (FF b (cur, snd (FF a (cur, record ls cur v)))). rewrite (list_rc b H0), (list_rc a H), in_record. tauto.
  - fold (FF b (cur, record ls cur v)). rewrite (list_rc b H), in_record. tauto.
Qed.
Lemma FF_in b e cur v : In e (snd (FF b (cur, v))) <-> In e (RL cur b) \/ In e v.
Proof. apply list_rc. apply all_stmt. apply finder_in. Qed.
Lemma RL_cons e cur x b : In e (RL cur (x :: b)) <-> ((In (fst e) (labels x) /\ snd e = cur) \/ inner e x cur) \/ In e (RL (cur ++ own [x]) b).
Proof. unfold RL. rewrite FF_cons, finder_split, FF_in, finder_in. unfold RL. cbn [In]. tauto. Qed.
Lemma RL_nil cur : RL cur [] = [].
Proof. reflexivity. Qed.
Lemma RL_app e p : forall cur q, In e (RL cur (p ++ q)) <-> In e (RL cur p) \/ In e (RL (cur ++ own p) q).
Proof.
  induction p as [|x p IH]; intros cur q; cbn [app].
  - rewrite RL_nil. cbn [own flat_map In]. rewrite app_nil_r. tauto.
  - rewrite !RL_cons, IH, (own_cons x p), app_assoc. tauto.
Qed.
Lemma keys_record ls cur : forall v, map fst (record ls cur v) = rev ls ++ map fst v.
Proof. unfold record. induction ls as [|l ls IH]; intros v; [reflexivity|]. cbn [fold_left rev]. rewrite IH. cbn [map fst]. now rewrite <- app_assoc. Qed.
Lemma keys_list b : Forall (fun x => forall cur v, map fst (snd (finder x (cur, v))) = rev (labs x) ++ map fst v) b -> forall cur v, map fst (snd (FF b (cur, v))) = rev (flat_map labs b) ++ map fst v.
Proof.
  induction 1 as [|x b Hx _ IH]; intros cur v; [reflexivity|]. rewrite FF_cons, finder_split, IH, Hx. cbn [flat_map]. now rewrite rev_app_distr, <- app_assoc.
Qed.
Lemma keys_finder x : forall cur v, map fst (snd (finder x (cur, v))) = rev (labs x) ++ map fst v.
Proof.
  induction x using stmt_ind'; intros cur v; cbn [finder snd labels labs].
  1, 2, 6, 7, 8, 9: now rewrite keys_record, app_nil_r.
  - fold (FF b (cur, record ls cur v)). now rewrite (keys_list b H), keys_record, rev_app_distr, <- app_assoc.
  - fold (FF a (cur, record ls cur v)). fold (FF b (cur, snd (FF a (cur, record ls cur v)))). rewrite (keys_list b H0), (keys_list a H), keys_record, !rev_app_distr, <- !app_assoc. reflexivity.
  - fold (FF b (cur, record ls cur v)). now rewrite (keys_list b H), keys_record, rev_app_distr, <- app_assoc.
Qed.
Lemma label_vars_RL b : label_vars b = RL [] b.
Proof. reflexivity. Qed.
Lemma keys b : map fst (label_vars b) = rev (flat_map labs b).
Proof. rewrite label_vars_RL. unfold RL. rewrite keys_list; [apply app_nil_r|]. apply all_stmt. apply keys_finder. Qed.
Lemma find_in l m c : find l m = Some c -> In (l, c) m.
Proof. induction m as [|[k v] m IH]; cbn [find]; [discriminate|]. destruct (Nat.eqb_spec k l) as [->|N]; [intros [= ->]; now left|intros H; right; auto]. Qed.
Lemma in_find l m c : NoDup (map fst m) -> In (l, c) m -> find l m = Some c.
Proof.
  induction m as [|[k v] m IH]; cbn [find map fst]; intros N I; [contradiction|]. inversion N; subst. destruct I as [E|I].
  - injection E as -> ->. now rewrite Nat.eqb_refl.
  - destruct (Nat.eqb_spec k l) as [->|Ne]; [|auto]. exfalso. apply H1. apply in_map_iff. exists (l, c). auto.
Qed.
Lemma in_find_label l b c : NoDup (flat_map labs b) -> In (l, c) (RL [] b) -> find l (label_vars b) = Some c.
Proof. intros N I. apply in_find; [|exact I]. rewrite keys. now apply NoDup_rev. Qed.
(** Positions *)
Lemma pos_next body p x q k : pos body ((p, x :: q) :: k) -> pos body ((p ++ [x], q) :: k).
Proof.
  intros H. inversion H; subst.
  - apply pos_top. now rewrite <- app_assoc.
  - replace (p ++ x :: q) with ((p ++ [x]) ++ q) in * by now rewrite <- app_assoc. now apply pos_block.
  - replace (p ++ x :: q) with ((p ++ [x]) ++ q) in * by now rewrite <- app_assoc. now apply pos_then.
  - replace (p ++ x :: q) with ((p ++ [x]) ++ q) in * by now rewrite <- app_assoc. now apply pos_else.
  - replace (p ++ x :: q) with ((p ++ [x]) ++ q) in * by now rewrite <- app_assoc. now apply pos_loop.
Qed.
Lemma pos_frame body z : pos body z -> exists p q k, z = (p, q) :: k.
Proof. destruct 1; eauto. Qed.
(** what follows a position is part of the body *)
Lemma pos_ind' (body : list stmt) (Q : list nat -> list stmt -> Prop) :
  (forall p q, p ++ q = body -> Q (own p) q) ->
  (forall c ls p q s, Q c (Block ls (p ++ q) :: s) -> Q (c ++ own p) q) ->
  (forall c ls p q b s, Q c (If ls (p ++ q) b :: s) -> Q (c ++ own p) q) ->
  (forall c ls p q a s, Q c (If ls a (p ++ q) :: s) -> Q (c ++ own p) q) ->
  (forall c ls p q s, Q c (Loop ls (p ++ q) :: s) -> Q (c ++ own p) q) ->
  forall z, pos body z -> match z with (p, q) :: k => Q (scope z) q | [] => True end.
Proof.
  intros A B C D E z H. induction H; cbn [scope] in *.
  - now apply A.
  - rewrite own_app. cbn [own flat_map]. rewrite app_nil_r. eapply B; eauto.
  - rewrite own_app. cbn [own flat_map]. rewrite app_nil_r. eapply C; eauto.
  - rewrite own_app. cbn [own flat_map]. rewrite app_nil_r. eapply D; eauto.
  - eapply E; eauto.
Qed.
Lemma pos_RL body p q k e : pos body ((p, q) :: k) -> In e (RL (scope ((p, q) :: k)) q) -> In e (RL [] body).
Proof.
  intros H. pattern (scope ((p, q) :: k)), q. refine (pos_ind' body (fun c q => In e (RL c q) -> In e (RL [] body)) _ _ _ _ _ _ H).
  - intros p' q' <- I. rewrite RL_app. now right.
  - intros c ls p' q' s IH I. apply IH. rewrite RL_cons. cbn [inner]. rewrite RL_app. tauto.
  - intros c ls p' q' b s IH I. apply IH. rewrite RL_cons. cbn [inner]. rewrite RL_app. tauto.
  - intros c ls p' q' a s IH I. apply IH. rewrite RL_cons. cbn [inner]. rewrite (RL_app _ p'). tauto.
  - intros c ls p' q' s IH I. apply IH. rewrite RL_cons. cbn [inner]. rewrite RL_app. tauto.
Qed.
Lemma labelled_find body l z : NoDup (flat_map labs body) -> pos body z -> labelled l z -> find l (label_vars body) = Some (scope z).
Proof.
  intros N H [p [x [q [k [-> I]]]]]. apply in_find_label; [exact N|]. eapply pos_RL; [exact H|]. rewrite RL_cons. left. left. auto.
Qed.
Lemma list_pos body l c b : Forall (fun x => forall p q k, pos body ((p, x :: q) :: k) -> (In l (labels x) /\ c = scope ((p, x :: q) :: k)) \/ inner (l, c) x (scope ((p, x :: q) :: k)) -> exists z, pos body z /\ labelled l z /\ c = scope z) b ->
  forall p k, pos body ((p, b) :: k) -> In (l, c) (RL (scope ((p, b) :: k)) b) -> exists z, pos body z /\ labelled l z /\ c = scope z.
Proof.
  induction 1 as [|x b Hx _ IH]; intros p k H I; [rewrite RL_nil in I; contradiction|]. rewrite RL_cons in I. destruct I as [I|I].
  - eapply Hx; [exact H|exact I].
  - apply (IH (p ++ [x]) k); [now apply pos_next|]. cbn [scope] in *. now rewrite own_app, app_assoc.
Qed.
Lemma stmt_pos body l c x : forall p q k, pos body ((p, x :: q) :: k) -> (In l (labels x) /\ c = scope ((p, x :: q) :: k)) \/ inner (l, c) x (scope ((p, x :: q) :: k)) -> exists z, pos body z /\ labelled l z /\ c = scope z.
Proof.
  induction x using stmt_ind'; intros p q k Hp [[I ->]|I]; try (eexists; split; [exact Hp|]; split; [|reflexivity]; now repeat eexists); cbn [inner] in I; try contradiction.
  - eapply (list_pos body l c b H []); [apply (pos_block body []); exact Hp|]. cbn [scope] in *. rewrite own_app. cbn [own flat_map]. now rewrite !app_nil_r.
  - destruct I as [I|I].
    + eapply (list_pos body l c a H []); [apply (pos_then body []); exact Hp|]. cbn [scope] in *. rewrite own_app. cbn [own flat_map]. now rewrite !app_nil_r.
    + eapply (list_pos body l c b H0 []); [apply (pos_else body []); exact Hp|]. cbn [scope] in *. rewrite own_app. cbn [own flat_map]. now rewrite !app_nil_r.
  - eapply (list_pos body l c b H []); [apply (pos_loop body []); exact Hp|]. cbn [scope] in *. cbn [own flat_map]. now rewrite !app_nil_r.
Qed.
Lemma RL_pos body l c : In (l, c) (RL [] body) -> exists z, pos body z /\ labelled l z /\ c = scope z.
Proof.
  intros I. apply (list_pos body l c body) with (p := []) (k := []); [apply all_stmt; intros x; apply stmt_pos|now apply pos_top|exact I].
Qed.
(** Insert *)
Definition ok (vars : lmap) (x : stmt) (cur : list nat) : bool := match insert vars x cur with Some _ => true | None => false end.
Definition okl (vars : lmap) (b : list stmt) (cur : list nat) : bool := match insert_all vars b cur with Some _ => true | None => false end.
Lemma insert_cur vars x cur c : insert vars x cur = Some c -> c = cur ++ own [x].
Proof.
  destruct x; cbn [insert own flat_map]; rewrite ?app_nil_r; try congruence.
  all: repeat match goal with |- (if ?b then _ else _) = _ -> _ => destruct b end; congruence.
Qed.
Lemma insert_none vars b : fold_left (fun s y => match s with Some c => insert vars y c | None => None end) b None = None.
Proof. induction b; auto. Qed.
Lemma okl_cons vars x b cur : okl vars (x :: b) cur = ok vars x cur && okl vars b (cur ++ own [x]).
Proof.
  unfold okl, ok, insert_all. cbn [fold_left]. destruct (insert vars x cur) as [c|] eqn:E; [|now rewrite insert_none]. now rewrite (insert_cur _ _ _ _ E).
Qed.
Lemma okl_app vars p : forall q cur, okl vars (p ++ q) cur = okl vars p cur && okl vars q (cur ++ own p).
Proof.
  induction p as [|x p IH]; intros q cur; cbn [app]; [now rewrite app_nil_r|]. rewrite !okl_cons, IH, (own_cons x p), andb_assoc, app_assoc. reflexivity.
Qed.
Lemma ok_block vars ls b cur : ok vars (Block ls b) cur = okl vars b cur.
Proof. unfold ok. cbn [insert]. fold (insert_all vars b cur). unfold okl. destruct (insert_all vars b cur); reflexivity. Qed.
Lemma ok_loop vars ls b cur : ok vars (Loop ls b) cur = okl vars b cur.
Proof. unfold ok. cbn [insert]. fold (insert_all vars b cur). unfold okl. destruct (insert_all vars b cur); reflexivity. Qed.
Lemma ok_if vars ls a b cur : ok vars (If ls a b) cur = okl vars a cur && okl vars b cur.
Proof. unfold ok. cbn [insert]. fold (insert_all vars a cur) (insert_all vars b cur). unfold okl. destruct (insert_all vars a cur); [|reflexivity]. destruct (insert_all vars b cur); reflexivity. Qed.
Lemma ok_fun vars ls b cur : ok vars (Fun ls b) cur = okl (label_vars b) b cur.
Proof. unfold ok. cbn [insert]. fold (insert_all (label_vars b) b cur). unfold okl. destruct (insert_all (label_vars b) b cur); reflexivity. Qed.
Lemma ok_goto vars ls l cur : ok vars (Goto ls l) cur = goto_ok vars l cur.
Proof. unfold ok. cbn [insert]. destruct (goto_ok vars l cur); reflexivity. Qed.
Lemma pos_ok vars body outer p q k : okl vars body outer = true -> pos body ((p, q) :: k) -> okl vars q (outer ++ scope ((p, q) :: k)) = true.
Proof.
  intros O H. pattern (scope ((p, q) :: k)), q. refine (pos_ind' body (fun c q => okl vars q (outer ++ c) = true) _ _ _ _ _ _ H).
  - intros p' q' <-. rewrite okl_app in O. now apply andb_true_iff in O.
  - intros c ls p' q' s E. rewrite okl_cons, ok_block, okl_app in E. rewrite app_assoc. apply andb_true_iff in E as [E _]. now apply andb_true_iff in E.
  - intros c ls p' q' b s E. rewrite okl_cons, ok_if, okl_app in E. rewrite app_assoc. apply andb_true_iff in E as [E _]. apply andb_true_iff in E as [E _]. now apply andb_true_iff in E.
  - intros c ls p' q' a s E. rewrite okl_cons, ok_if, (okl_app _ p') in E. rewrite app_assoc. apply andb_true_iff in E as [E _]. apply andb_true_iff in E as [_ E]. now apply andb_true_iff in E.
  - intros c ls p' q' s E. rewrite okl_cons, ok_loop, okl_app in E. rewrite app_assoc. apply andb_true_iff in E as [E _]. now apply andb_true_iff in E.
Qed.
(** Subsequences *)
Inductive subl : list nat -> list nat -> Prop :=
| sub_nil l : subl [] l
| sub_keep x a b : subl a b -> subl (x :: a) (x :: b)
| sub_skip x a b : subl a b -> subl a (x :: b).
Lemma subl_refl l : subl l l.
Proof. induction l; constructor; auto. Qed.
Lemma subl_app a b c d : subl a b -> subl c d -> subl (a ++ c) (b ++ d).
Proof. intros H1 H2. induction H1; cbn [app]; try (constructor; auto; fail). induction l; cbn [app]; auto. now apply sub_skip. Qed.
Lemma subl_in a b x : subl a b -> In x a -> In x b.
Proof. induction 1; cbn [In]; [tauto| |]; intuition. Qed.
Lemma subl_nodup a b : subl a b -> NoDup b -> NoDup a.
Proof. induction 1; intros N; [constructor| |]; inversion N; subst; auto. constructor; auto. intros I. apply H2. eapply subl_in; eauto. Qed.
Lemma own_objs p : subl (own p) (flat_map objs p).
Proof. induction p as [|x p IH]; [constructor|]. rewrite own_cons. cbn [flat_map]. apply subl_app; [|exact IH]. destruct x; cbn; constructor; constructor. Qed.
Lemma subl_weak a b c : subl a b -> subl a (b ++ c).
Proof. intros H. rewrite <- (app_nil_r a). apply subl_app; [exact H|constructor]. Qed.
Lemma pos_subl body z : pos body z -> subl (scope z) (flat_map objs body).
Proof.
  intros H. destruct (pos_frame _ _ H) as [p [q [k ->]]].
  enough (G : exists A B, flat_map objs body = A ++ flat_map objs q ++ B /\ subl (scope ((p, q) :: k)) A) by (destruct G as [A [B [-> G]]]; now apply subl_weak).
  pattern (scope ((p, q) :: k)), q. refine (pos_ind' body (fun c q => exists A B, flat_map objs body = A ++ flat_map objs q ++ B /\ subl c A) _ _ _ _ _ _ H).
  - intros p' q' <-. exists (flat_map objs p'), []. rewrite flat_map_app, app_nil_r. split; [reflexivity|apply own_objs].
  - intros c ls p' q' s [A [B [E G]]]. exists (A ++ flat_map objs p'), (flat_map objs s ++ B). split; [|apply subl_app; [exact G|apply own_objs]].
    rewrite E. cbn [flat_map objs]. now rewrite flat_map_app, <- !app_assoc.
  - intros c ls p' q' b s [A [B [E G]]]. exists (A ++ flat_map objs p'), (flat_map objs b ++ flat_map objs s ++ B). split; [|apply subl_app; [exact G|apply own_objs]].
    rewrite E. cbn [flat_map objs]. now rewrite flat_map_app, <- !app_assoc.
  - intros c ls p' q' a s [A [B [E G]]]. exists (A ++ flat_map objs a ++ flat_map objs p'), (flat_map objs s ++ B). split.
    + rewrite E. cbn [flat_map objs]. now rewrite flat_map_app, <- !app_assoc.
    + apply subl_app; [exact G|]. apply (subl_app [] _ (own p')); [constructor|apply own_objs].
  - intros c ls p' q' s [A [B [E G]]]. exists (A ++ flat_map objs p'), (flat_map objs s ++ B). split; [|apply subl_app; [exact G|apply own_objs]].
    rewrite E. cbn [flat_map objs]. now rewrite flat_map_app, <- !app_assoc.
Qed.
Lemma inb_in o l : inb o l = true <-> In o l.
Proof. unfold inb. rewrite existsb_exists. split; [intros [x [A B]]; apply Nat.eqb_eq in B; now subst|intros H; exists o; split; [exact H|apply Nat.eqb_refl]]. Qed.
Lemma subl_filter a b : subl a b -> NoDup b -> filter (fun o => inb o a) b = a.
Proof.
  induction 1 as [l|x a b H IH|x a b H IH]; intros N.
  - induction l as [|x l IHl]; [reflexivity|]. inversion N; subst. cbn [filter inb existsb]. auto.
  - inversion N; subst. cbn [filter inb existsb]. rewrite Nat.eqb_refl. cbn [orb]. f_equal. transitivity (filter (fun o => inb o a) b); [|now apply IH]. apply filter_ext_in. intros o I. cbn [inb existsb].
    destruct (Nat.eqb_spec o x) as [->|_]; [contradiction|reflexivity].
  - inversion N; subst. cbn [filter]. destruct (inb x a) eqn:E; [|auto]. apply inb_in in E. exfalso. apply H2. eapply subl_in; eauto.
Qed.
Lemma order_same a b all : subl a all -> subl b all -> NoDup all -> incl b a -> filter (fun o => inb o b) a = b.
Proof.
  intros Ha Hb N I. transitivity (filter (fun o => inb o b) (filter (fun o => inb o a) all)); [now rewrite (subl_filter a all Ha N)|]. transitivity (filter (fun o => inb o b) all); [|now apply subl_filter].
  clear Ha Hb N. induction all as [|x all IH]; [reflexivity|]. cbn [filter]. destruct (inb x a) eqn:A; cbn [filter]; destruct (inb x b) eqn:B; rewrite ?B, IH; auto.
  apply inb_in in B. apply I in B. apply inb_in in B. congruence.
Qed.
(** The check is exact *)
Lemma nodup_weak (a b c : list nat) : NoDup (a ++ b ++ c) -> NoDup (a ++ c).
Proof. intros H. eapply subl_nodup; [|exact H]. apply subl_app; [apply subl_refl|]. apply (subl_app [] b c c); [constructor|apply subl_refl]. Qed.
Lemma list_funs b : Forall (fun x => forall vars cur f, ok vars x cur = true -> NoDup (cur ++ objs x) -> In f (funs x) -> exists cur', okl (label_vars f) f cur' = true /\ NoDup (cur' ++ flat_map objs f)) b ->
  forall vars cur f, okl vars b cur = true -> NoDup (cur ++ flat_map objs b) -> In f (flat_map funs b) -> exists cur', okl (label_vars f) f cur' = true /\ NoDup (cur' ++ flat_map objs f).
Proof.
  induction 1 as [|x b Hx _ IH]; intros vars cur f O N I; [contradiction|]. rewrite okl_cons in O. apply andb_true_iff in O as [O1 O2]. cbn [flat_map] in *. apply in_app_iff in I as [I|I].
  - eapply Hx; eauto. eapply subl_nodup; [|exact N]. rewrite app_assoc. apply subl_weak. apply subl_refl.
  - eapply IH; [exact O2| |exact I]. eapply subl_nodup; [|exact N]. rewrite <- app_assoc. apply subl_app; [apply subl_refl|]. apply subl_app; [|apply subl_refl].
    pose proof (own_objs [x]) as Y. cbn [flat_map] in Y. now rewrite app_nil_r in Y.
Qed.
Lemma stmt_funs x : forall vars cur f, ok vars x cur = true -> NoDup (cur ++ objs x) -> In f (funs x) -> exists cur', okl (label_vars f) f cur' = true /\ NoDup (cur' ++ flat_map objs f).
Proof.
  induction x using stmt_ind'; intros vars cur f O N I; cbn [funs objs] in *; try contradiction.
  - rewrite ok_block in O. eapply list_funs; eauto.
  - rewrite ok_if in O. apply andb_true_iff in O as [O1 O2]. apply in_app_iff in I as [I|I].
    + eapply (list_funs a H); [exact O1| |exact I]. rewrite app_assoc in N. eapply subl_nodup; [|exact N]. apply subl_weak. apply subl_refl.
    + eapply (list_funs b H0); [exact O2| |exact I]. eapply nodup_weak; eauto.
  - rewrite ok_loop in O. eapply list_funs; eauto.
  - rewrite ok_fun in O. destruct I as [<-|I]; [eauto|]. eapply list_funs; eauto.
Qed.
Lemma accepted_funs body f : accepted body = true -> NoDup (flat_map objs body) -> In f (functions body) -> exists cur', okl (label_vars f) f cur' = true /\ NoDup (cur' ++ flat_map objs f).
Proof.
  intros A N [<-|I]; [exists []; split; [exact A|exact N]|]. eapply (list_funs body); [apply all_stmt; apply stmt_funs|exact A|exact N|exact I].
Qed.
Lemma goto_ok_in vars l cur v o : goto_ok vars l cur = true -> find l vars = Some v -> In o v -> In o cur.
Proof. unfold goto_ok. intros H E I. rewrite E in H. rewrite forallb_forall in H. apply (inb_in o cur). now apply H. Qed.
Lemma accepted_sound body f : well_formed body -> accepted body = true -> In f (functions body) -> ~ crosses f.
Proof.
  intros [N NL] A F [p [ls [l [q [k [z [o [P1 [P2 [L [I1 I2]]]]]]]]]]]. destruct (accepted_funs _ _ A N F) as [cur [O D]].
  pose proof (pos_ok _ _ _ _ _ _ O P1) as G. rewrite okl_cons, ok_goto in G. apply andb_true_iff in G as [G _].
  pose proof (goto_ok_in _ _ _ _ o G (labelled_find _ _ _ (NL f F) P2 L) I1) as J. apply in_app_iff in J as [J|J]; [|contradiction].
  pose proof (subl_in _ _ _ (pos_subl _ _ P2) I1) as K. clear - D J K. induction cur as [|x cur IH]; [contradiction|]. cbn [app] in D. inversion D; subst. destruct J as [->|J]; auto. apply H1. apply in_app_iff. now right.
Qed.
Lemma list_crosses b : Forall (fun x => forall body outer p q k, pos body ((p, x :: q) :: k) -> ok (label_vars body) x (outer ++ scope ((p, x :: q) :: k)) = false -> crosses body \/ exists f, In f (funs x) /\ crosses f) b ->
  forall body outer p k, pos body ((p, b) :: k) -> okl (label_vars body) b (outer ++ scope ((p, b) :: k)) = false -> crosses body \/ exists f, In f (flat_map funs b) /\ crosses f.
Proof.
  induction 1 as [|x b Hx _ IH]; intros body outer p k P O; [discriminate|]. rewrite okl_cons in O. apply andb_false_iff in O as [O|O].
  - destruct (Hx _ _ _ _ _ P O) as [C|[f [I C]]]; [now left|right; exists f; split; [|exact C]]. cbn [flat_map]. apply in_app_iff. now left.
  - destruct (IH body outer (p ++ [x]) k) as [C|[f [I C]]]; [now apply pos_next| |now left|right; exists f; split; [|exact C]].
    + cbn [scope] in *. now rewrite own_app, !app_assoc in *.
    + cbn [flat_map]. apply in_app_iff. now right.
Qed.
Lemma stmt_crosses x : forall body outer p q k, pos body ((p, x :: q) :: k) -> ok (label_vars body) x (outer ++ scope ((p, x :: q) :: k)) = false -> crosses body \/ exists f, In f (funs x) /\ crosses f.
Proof.
  induction x using stmt_ind'; intros body outer p q k P O; try discriminate; cbn [funs].
  - rewrite ok_block in O. eapply (list_crosses b H body outer []); [apply (pos_block body []); exact P|]. cbn [scope] in *. rewrite own_app. cbn [own flat_map]. now rewrite !app_nil_r.
  - rewrite ok_if in O. apply andb_false_iff in O as [O|O].
    + destruct (list_crosses a H body outer [] ((p ++ [If ls a b], q) :: k)) as [C|[f [I C]]]; [apply (pos_then body []); exact P| |now left|right; exists f; split; [apply in_app_iff; now left|exact C]].
      cbn [scope] in *. rewrite own_app. cbn [own flat_map]. now rewrite !app_nil_r.
    + destruct (list_crosses b H0 body outer [] ((p ++ [If ls a b], q) :: k)) as [C|[f [I C]]]; [apply (pos_else body []); exact P| |now left|right; exists f; split; [apply in_app_iff; now right|exact C]].
      cbn [scope] in *. rewrite own_app. cbn [own flat_map]. now rewrite !app_nil_r.
  - rewrite ok_loop in O. eapply (list_crosses b H body outer []); [apply (pos_loop body []); exact P|]. cbn [scope] in *. cbn [own flat_map]. now rewrite !app_nil_r.
  - left. rewrite ok_goto in O. unfold goto_ok in O. destruct (find l (label_vars body)) as [v|] eqn:E; [|discriminate]. apply find_in in E. destruct (RL_pos _ _ _ E) as [z [Pz [L ->]]].
    assert (X : exists o, In o (scope z) /\ existsb (Nat.eqb o) (outer ++ scope ((p, Goto ls l :: q) :: k)) = false).
    { clear - O. induction (scope z) as [|o v IH]; [discriminate|]. cbn [forallb] in O. apply andb_false_iff in O as [O|O]; [exists o; split; [now left|exact O]|]. destruct (IH O) as [o' [A B]]. exists o'. split; [now right|exact B]. }
    destruct X as [o [I X]]. exists p, ls, l, q, k, z, o. repeat split; auto. intros J. assert (Y : inb o (outer ++ scope ((p, Goto ls l :: q) :: k)) = true) by (apply inb_in, in_app_iff; now right). unfold inb in Y. congruence.
  - rewrite ok_fun in O. right. destruct (list_crosses b H b (outer ++ scope ((p, Fun ls b :: q) :: k)) [] []) as [C|[f [I C]]].
    + now apply pos_top.
    + cbn [scope own flat_map app] in *. now rewrite app_nil_r.
    + exists b. split; [now left|exact C].
    + exists f. split; [now right|exact C].
Qed.
Lemma accepted_complete body : accepted body = false -> exists f, In f (functions body) /\ crosses f.
Proof.
  intros A. destruct (list_crosses body (all_stmt _ _ stmt_crosses) body [] [] []) as [C|[f [I C]]]; [now apply pos_top|exact A| |].
  - exists body. split; [now left|exact C].
  - exists f. split; [now right|exact C].
Qed.
(** Executions *)
Lemma step_pos body z z' c : pos body z -> step body z z' c -> z' = [] \/ pos body z'.
Proof.
  intros P S0. inversion S0; subst; try (right; now apply pos_next); try (right; assumption).
  - right. apply (pos_block body []). exact P.
  - right. apply (pos_then body []). exact P.
  - right. apply (pos_else body []). exact P.
  - right. apply (pos_loop body []). exact P.
  - inversion P; subst; [now left| | | |right; assumption]; right; now apply pos_next.
  - now left.
Qed.
Lemma exec_pos body tr z live : exec body tr z live -> z = [] \/ pos body z.
Proof.
  induction 1 as [|tr z live z' c _ IH S0]; [right; now apply pos_top|]. destruct IH as [->|P]; [inversion S0|]. eapply step_pos; eauto.
Qed.
Lemma pos_simple body p q k : forallb simple_jumps body = true -> pos body ((p, q) :: k) -> forallb simple_jumps q = true.
Proof.
  intros O H. pattern (scope ((p, q) :: k)), q. refine (pos_ind' body (fun c q => forallb simple_jumps q = true) _ _ _ _ _ _ H).
  - intros p' q' <-. rewrite forallb_app in O. now apply andb_true_iff in O.
  - intros c ls p' q' s E. cbn [forallb simple_jumps] in E. rewrite forallb_app in E. apply andb_true_iff in E as [E _]. now apply andb_true_iff in E.
  - intros c ls p' q' b s E. cbn [forallb simple_jumps] in E. rewrite forallb_app in E. apply andb_true_iff in E as [E _]. apply andb_true_iff in E as [E _]. now apply andb_true_iff in E.
  - intros c ls p' q' a s E. cbn [forallb simple_jumps] in E. rewrite forallb_app in E. apply andb_true_iff in E as [E _]. apply andb_true_iff in E as [_ E]. now apply andb_true_iff in E.
  - intros c ls p' q' s E. cbn [forallb simple_jumps] in E. rewrite forallb_app in E. apply andb_true_iff in E as [E _]. now apply andb_true_iff in E.
Qed.
Lemma subl_scope body z : z = [] \/ pos body z -> subl (scope z) (flat_map objs body).
Proof. intros [->|P]; [constructor|now apply pos_subl]. Qed.
Lemma step_scope body z z' c : forallb simple_jumps body = true -> ~ crosses body -> pos body z -> step body z z' c ->
  (c = [] /\ incl (scope z') (scope z)) \/ (exists o, c = [o] /\ scope z' = scope z ++ [o]).
Proof.
  intros SJ NC P S0. inversion S0; subst.
  1: right; exists o; split; [reflexivity|]; cbn [scope]; rewrite own_app; cbn; now rewrite app_assoc.
  all: left; split; [reflexivity|].
  1-7: cbn [scope]; rewrite ?own_app; cbn [own flat_map]; rewrite ?app_nil_r; apply incl_refl.
  - cbn [scope]. intros o I. apply in_app_iff. now left.
  - intros o [].
  - intros o I. destruct (in_dec Nat.eq_dec o (scope ((p, Goto ls l :: q) :: k))) as [J|J]; [exact J|]. exfalso. apply NC. exists p, ls, l, q, k, z', o. auto 6.
  - apply (pos_simple _ _ _ _ SJ) in P. discriminate.
Qed.
Lemma exec_live body tr z live : NoDup (flat_map objs body) -> forallb simple_jumps body = true -> ~ crosses body -> exec body tr z live -> live = scope z.
Proof.
  intros N SJ NC E. induction E as [|tr z live z' c E IH S0]; [reflexivity|]. subst live. destruct (exec_pos _ _ _ _ E) as [->|P]; [inversion S0|].
  pose proof (step_pos _ _ _ _ P S0) as P'. unfold kept. destruct (step_scope _ _ _ _ SJ NC P S0) as [[-> I]|[o [-> I]]].
  - rewrite app_nil_r. eapply order_same; [apply subl_scope; right; exact P|apply subl_scope; exact P'|exact N|exact I].
  - rewrite I. f_equal. assert (F : forall l m, incl l m -> filter (fun o => inb o m) l = l).
    { clear. induction l as [|x l IH]; intros m I; [reflexivity|]. cbn [filter]. assert (X : inb x m = true) by (apply inb_in, I; now left). rewrite X, IH; [reflexivity|]. intros y J. apply I. now right. }
    apply F. intros y J. apply in_app_iff. now left.
Qed.
Lemma exec_fresh body tr z live z' c o : NoDup (flat_map objs body) -> forallb simple_jumps body = true -> ~ crosses body -> exec body tr z live -> step body z z' c -> In o c -> ~ In o live.
Proof.
  intros N SJ NC E S0 I J. pose proof (exec_live _ _ _ _ N SJ NC (e_step _ _ _ _ _ _ E S0)) as L. pose proof (exec_live _ _ _ _ N SJ NC E) as L0.
  destruct (exec_pos _ _ _ _ E) as [->|P]; [inversion S0|]. destruct (step_scope _ _ _ _ SJ NC P S0) as [[-> _]|[x [-> H]]]; [contradiction|].
  destruct I as [->|[]]. pose proof (subl_nodup _ _ (subl_scope _ _ (step_pos _ _ _ _ P S0)) N) as D. rewrite H in D. subst live. apply NoDup_remove in D as [_ D]. rewrite app_nil_r in D. contradiction.
Qed.
Definition num (o : nat) (l : list nat) : nat := length (filter (fun x => x =? o) l).
Lemma num_app o a b : num o (a ++ b) = num o a + num o b.
Proof. unfold num. now rewrite filter_app, app_length. Qed.
Lemma num_rev o l : num o (rev l) = num o l.
Proof. induction l as [|x l IH]; [reflexivity|]. cbn [rev]. rewrite num_app, IH. unfold num. cbn [filter]. destruct (x =? o); cbn [length]; lia. Qed.
Lemma num_split o z l : num o l = num o (kept z l) + num o (left_ z l).
Proof. unfold num, kept, left_. induction l as [|x l IH]; [reflexivity|]. cbn [filter]. destruct (inb x (scope z)); cbn [negb filter]; destruct (x =? o); cbn [length]; lia. Qed.
Lemma num_nodup o l : NoDup l -> num o l = if inb o l then 1 else 0.
Proof.
  unfold num, inb. induction 1 as [|x l N _ IH]; [reflexivity|]. cbn [filter existsb]. rewrite (Nat.eqb_sym o x). destruct (Nat.eqb_spec x o) as [->|Ne]; cbn [length orb]; [|exact IH]. rewrite IH.
  destruct (existsb (Nat.eqb o) l) eqn:E; [|reflexivity]. apply inb_in in E. contradiction.
Qed.
Lemma cnt_app f a b : cnt f (a ++ b) = cnt f a + cnt f b.
Proof. unfold cnt. now rewrite filter_app, app_length. Qed.
Lemma cnt_C o l : cnt (isC o) (map EC l) = num o l /\ cnt (isD o) (map EC l) = 0 /\ cnt (isC o) (map ED l) = 0 /\ cnt (isD o) (map ED l) = num o l.
Proof. unfold cnt, num. induction l as [|x l [A [B [C D]]]]; [auto|]. cbn [map filter isC isD]. destruct (x =? o); cbn [length]; auto. Qed.
Lemma exec_count body tr z live o : exec body tr z live -> cnt (isC o) tr = cnt (isD o) tr + num o live.
Proof.
  induction 1 as [|tr z live z' c _ IH _]; [reflexivity|]. rewrite !cnt_app. destruct (cnt_C o c) as [-> [-> _]]. destruct (cnt_C o (rev (left_ z' live))) as [_ [_ [-> ->]]].
  rewrite num_app, num_rev. pose proof (num_split o z' live). lia.
Qed.
Lemma nested_nodup body f : NoDup (flat_map objs body) -> In f (functions body) -> NoDup (flat_map objs f).
Proof.
  intros N [<-|I]; [exact N|]. revert N I. assert (G : forall b, Forall (fun x => NoDup (objs x) -> In f (funs x) -> NoDup (flat_map objs f)) b -> NoDup (flat_map objs b) -> In f (flat_map funs b) -> NoDup (flat_map objs f)).
  { induction 1 as [|x b Hx _ IH]; cbn [flat_map]; intros N I; [contradiction|]. apply in_app_iff in I as [I|I].
    - apply Hx; [|exact I]. eapply subl_nodup; [|exact N]. apply subl_weak. apply subl_refl.
    - apply IH; [|exact I]. eapply subl_nodup; [|exact N]. apply (subl_app [] _ (flat_map objs b)); [constructor|apply subl_refl]. }
  apply G. apply all_stmt. intros x. induction x using stmt_ind'; cbn [objs funs]; try contradiction; try (now apply G).
  - intros N I. apply in_app_iff in I as [I|I].
    + apply (G a H); [|exact I]. eapply subl_nodup; [|exact N]. apply subl_weak. apply subl_refl.
    + apply (G b H0); [|exact I]. eapply subl_nodup; [|exact N]. apply (subl_app [] _ (flat_map objs b)); [constructor|apply subl_refl].
  - intros N [<-|I]; [exact N|]. now apply (G b H).
Qed.
