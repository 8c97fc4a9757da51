From Coq Require Import List Bool ZArith Lia ZifyBool.
From Verif Require Import SpecCost.Model SpecCost.Spec.
Import ListNotations.
Local Open Scope Z_scope.

Lemma ty_ind' (P : ty -> Prop) :
  P Leaf -> P Var -> (forall t, P t -> P (Level t)) -> (forall ps rs, Forall P ps -> Forall P rs -> P (Func ps rs)) ->
  (forall ts, Forall P ts -> P (Tuple ts)) -> (forall args, Forall (fun a => P (snd a)) args -> P (Inst args)) -> forall t, P t.
Proof.
  intros HL HV HLe HF HT HI. fix IH 1. intros [| |t|ps rs|ts|args].
  - exact HL.
  - exact HV.
  - apply HLe, IH.
  - apply HF; [induction ps as [|x l IHl]|induction rs as [|x l IHl]]; constructor; [apply IH|apply IHl|apply IH|apply IHl].
  - apply HT. induction ts as [|x l IHl]; constructor; [apply IH|apply IHl].
  - apply HI. induction args as [|[r x] l IHl]; constructor; [apply IH|apply IHl].
Qed.
Lemma size_pos t : 1 <= size t.
Proof.
  induction t as [| |t IH|ps rs Hp Hr|ts Ht|args Ha] using ty_ind'; cbn [size]; try lia.
  - assert (0 <= fold_right Z.add 0 (map size ps)) by (induction Hp; cbn [map fold_right]; lia).
    assert (0 <= fold_right Z.add 0 (map size rs)) by (induction Hr; cbn [map fold_right]; lia). lia.
  - assert (0 <= fold_right Z.add 0 (map size ts)) by (induction Ht; cbn [map fold_right]; lia). lia.
  - assert (0 <= fold_right Z.add 0 (map (fun a => size (snd a)) args)) by (induction Ha; cbn [map fold_right]; lia). lia.
Qed.
Definition sizes (l : list ty) : Z := fold_right Z.add 0 (map size l).
Lemma sizes_pos l : 0 <= sizes l.
Proof. induction l as [|t l IH]; unfold sizes in *; cbn [map fold_right]; [lia|]. assert (H := size_pos t). lia. Qed.

(** the visit of a type is right *)
Definition right (t : ty) : Prop :=
  match depth t with Some d => (forall c, visit t c = d) /\ 0 <= d < size t | None => visit t (-1) = -1 end.
Definition low (m : Z) (o : option Z) : Z := match o with Some d => Z.min d m | None => m end.
Lemma fold_better l : Forall right l -> forall m, fold_left (fun m t => better (visit t (-1)) m) l m = low m (least (map depth l)) /\
  (forall d, least (map depth l) = Some d -> 0 <= d < sizes l).
Proof.
  induction 1 as [|t l Ht _ IH]; intros m; [split; [reflexivity|discriminate]|].
  cbn [fold_left map]. change (least (depth t :: map depth l)) with (omin (depth t) (least (map depth l))).
  assert (HS := size_pos t). assert (HL := sizes_pos l). change (sizes (t :: l)) with (size t + sizes l).
  specialize (IH (better (visit t (-1)) m)) as [IH1 IH2]. rewrite IH1. clear IH1.
  unfold right in Ht. destruct (depth t) as [d|]; [destruct Ht as [Hv Hd]; rewrite Hv|rewrite Ht].
  - unfold better. destruct (d =? -1) eqn:E1; [lia|]. cbn [negb andb].
    destruct (least (map depth l)) as [d'|]; cbn [omin low]; [specialize (IH2 d' eq_refl)|clear IH2];
      (split; [destruct (d <? m) eqn:E; lia|intros x [= <-]; lia]).
  - unfold better. cbn [Z.eqb Pos.eqb negb andb]. cbn [omin]. split; [reflexivity|]. intros d Hd. specialize (IH2 d Hd). lia.
Qed.
Lemma noneOrInc_low o n : (forall d, o = Some d -> 0 <= d < n) -> n < mx -> noneOrInc (low mx o) = match option_map (Z.add 1) o with Some d => d | None => -1 end.
Proof.
  intros H Hn. destruct o as [d|]; cbn [low option_map]; unfold noneOrInc.
  - specialize (H d eq_refl). destruct (Z.min d mx <? mx) eqn:E; lia.
  - destruct (mx <? mx) eqn:E; [lia|reflexivity].
Qed.
Lemma low_low l1 l2 m : low (low m l1) l2 = low m (omin l1 l2).
Proof. destruct l1, l2; cbn [low omin]; lia. Qed.

(** generic arguments *)
Definition step (c : Z) (a : bool * ty) : Z := let (r, t) := a in visit t (if r then visit t c else c).
Lemma step_poly a d c : right (snd a) -> depth (snd a) = Some d -> step c a = d.
Proof. destruct a as [r t]. cbn [snd step]. unfold right. intros H E. rewrite E in H. apply H. Qed.
Lemma step_mono a : right (snd a) -> depth (snd a) = None -> step (-1) a = -1.
Proof. destruct a as [[] t]; cbn [snd step]; unfold right; intros H E; rewrite E in H; rewrite !H; reflexivity. Qed.
Lemma step_leaf r c : step c (r, Leaf) = c.
Proof. destruct r; reflexivity. Qed.
Lemma leaves l : forallb is_leaf (map snd l) = true -> (forall c, fold_left step l c = c) /\ least (map (fun a => depth (snd a)) l) = None.
Proof.
  induction l as [|[r t] l IH]; cbn [map snd forallb]; intros H; [split; reflexivity|]. apply andb_prop in H as [Ht Hl].
  destruct t; try discriminate. destruct (IH Hl) as [H1 H2]. cbn [fold_left]. split; [intros c; rewrite step_leaf; apply H1|].
  unfold least in *. cbn [fold_right depth omin]. exact H2.
Qed.
Lemma fold_step l : Forall (fun a => right (snd a)) l -> tail_ok (map snd l) = true ->
  match least (map (fun a => depth (snd a)) l) with Some d => forall c, fold_left step l c = d | None => fold_left step l (-1) = -1 end.
Proof.
  induction 1 as [|a l Ha _ IH]; cbn [map tail_ok]; intros H; [reflexivity|].
  change (least (depth (snd a) :: map (fun a => depth (snd a)) l)) with (omin (depth (snd a)) (least (map (fun a => depth (snd a)) l))).
  unfold poly in H. destruct (depth (snd a)) as [d|] eqn:E.
  - destruct (leaves l H) as [H1 H2]. rewrite H2. cbn [omin]. intros c. cbn [fold_left]. rewrite (step_poly _ d) by assumption. apply H1.
  - cbn [omin]. specialize (IH H). cbn [fold_left]. destruct (least _) as [d|].
    + intros c. apply IH.
    + rewrite step_mono by assumption. exact IH.
Qed.
Lemma inst_first args : Forall (fun a => depth (snd a) = None -> visit (snd a) (-1) = -1) args -> least (map (fun a => depth (snd a)) args) = None ->
  fold_left (fun m a => better (let (r, t) := a : bool * ty in if r then visit t (-1) else -1) m) args mx = mx.
Proof.
  induction 1 as [|[r t] l Ha _ IH]; intros H; [reflexivity|].
  change (omin (depth t) (least (map (fun a => depth (snd a)) l)) = None) in H. cbn [snd] in Ha. cbn [fold_left].
  destruct (depth t) as [d|]; [destruct (least _); discriminate H|]. cbn [omin] in H. rewrite (Ha eq_refl).
  assert (better (if r then -1 else -1) mx = mx) as -> by (destruct r; reflexivity). apply IH, H.
Qed.
Lemma visit_inst args c : visit (Inst args) c = inc (fold_left step args (noneOrInc (fold_left (fun m a => better (let (r, t) := a : bool * ty in if r then visit t (-1) else -1) m) args mx))).
Proof. reflexivity. Qed.
Lemma least_size (f : ty -> Z) args : Forall (fun a => right (snd a)) args -> forall d, least (map (fun a => depth (snd a)) args) = Some d ->
  0 <= d < fold_right Z.add 0 (map (fun a : bool * ty => size (snd a)) args).
Proof.
  induction 1 as [|a l Ha _ IH]; intros d; [discriminate|].
  change (omin (depth (snd a)) (least (map (fun a => depth (snd a)) l)) = Some d -> 0 <= d < size (snd a) + fold_right Z.add 0 (map (fun a : bool * ty => size (snd a)) l)).
  assert (HS := size_pos (snd a)). assert (0 <= fold_right Z.add 0 (map (fun a : bool * ty => size (snd a)) l)).
  { clear. induction l as [|x l IHl]; cbn [map fold_right]; [lia|]. assert (H := size_pos (snd x)). lia. }
  unfold right in Ha. destruct (depth (snd a)) as [x|]; cbn [omin].
  - destruct (least _) as [y|]; intros [= <-]; [specialize (IH y eq_refl)|]; lia.
  - intros E. specialize (IH d E). lia.
Qed.
Lemma Forall_simple (l : list ty) : Forall (fun t => simple t = true -> size t < mx -> right t) l -> forallb simple l = true -> sizes l < mx -> Forall right l.
Proof.
  induction 1 as [|t l Ht _ IH]; cbn [forallb]; intros H Hs; constructor; apply andb_prop in H as [H1 H2];
    change (sizes (t :: l)) with (size t + sizes l) in Hs; assert (HS := size_pos t); assert (HL := sizes_pos l).
  - apply Ht; [assumption|lia].
  - apply IH; [assumption|lia].
Qed.
Theorem visit_right t : simple t = true -> size t < mx -> right t.
Proof.
  induction t as [| |t IH|ps rs Hp Hr|ts Ht|args Ha] using ty_ind'; cbn [simple size]; intros Hs Hz.
  - reflexivity.
  - split; [reflexivity|]. cbn [size]. lia.
  - specialize (IH Hs ltac:(lia)). unfold right in *. cbn [depth visit size]. destruct (depth t) as [d|]; cbn [option_map].
    + destruct IH as [Hv Hd]. split; [|lia]. intros c. rewrite Hv. unfold inc. destruct (0 <=? d) eqn:E; lia.
    + rewrite IH. reflexivity.
  - apply andb_prop in Hs as [Hs1 Hs2]. change (1 + sizes ps + sizes rs < mx) in Hz. assert (HP := sizes_pos ps). assert (HR := sizes_pos rs).
    assert (Fp : Forall right ps) by (apply Forall_simple; [assumption|assumption|lia]).
    assert (Fr : Forall right rs) by (apply Forall_simple; [assumption|assumption|lia]).
    assert (E : forall c, visit (Func ps rs) c = match depth (Func ps rs) with Some d => d | None => -1 end /\ (forall d, depth (Func ps rs) = Some d -> 0 <= d < size (Func ps rs))).
    { intros c. cbn [visit depth]. destruct (fold_better ps Fp mx) as [-> Bp]. destruct (fold_better rs Fr (low mx (least (map depth ps)))) as [-> Br].
      assert (B : forall d, omin (least (map depth ps)) (least (map depth rs)) = Some d -> 0 <= d < sizes ps + sizes rs).
      { intros d. destruct (least (map depth ps)) as [x|]; [specialize (Bp x eq_refl)|clear Bp];
          (destruct (least (map depth rs)) as [y|]; [specialize (Br y eq_refl)|clear Br]); cbn [omin]; intros [= <-]; lia. }
      rewrite low_low. split; [apply (noneOrInc_low _ _ B); lia|]. intros d. destruct (omin _ _) as [x|]; [|discriminate]. cbn [option_map]. intros Ex. assert (d = 1 + x) by congruence. specialize (B x eq_refl).
      change (size (Func ps rs)) with (1 + sizes ps + sizes rs). lia. }
    unfold right. destruct (depth (Func ps rs)) as [d|]; [split; [intros c; apply (E c)|apply (proj2 (E 0) d eq_refl)]|apply (E (-1))].
  - change (1 + sizes ts < mx) in Hz. assert (HP := sizes_pos ts). assert (Ft : Forall right ts) by (apply Forall_simple; [assumption|assumption|lia]).
    assert (E : forall c, visit (Tuple ts) c = match depth (Tuple ts) with Some d => d | None => -1 end /\ (forall d, depth (Tuple ts) = Some d -> 0 <= d < size (Tuple ts))).
    { intros c. cbn [visit depth]. destruct (fold_better ts Ft mx) as [-> B]. split; [apply (noneOrInc_low _ _ B); lia|].
      intros d. destruct (least (map depth ts)) as [x|]; [|discriminate]. cbn [option_map]. intros Ex. assert (d = 1 + x) by congruence. specialize (B x eq_refl). change (size (Tuple ts)) with (1 + sizes ts). lia. }
    unfold right. destruct (depth (Tuple ts)) as [d|]; [split; [intros c; apply (E c)|apply (proj2 (E 0) d eq_refl)]|apply (E (-1))].
  - apply andb_prop in Hs as [Hs1 Hs2].
    assert (Fa : Forall (fun a => right (snd a)) args).
    { clear Hs2. assert (Hz' : fold_right Z.add 0 (map (fun a : bool * ty => size (snd a)) args) < mx) by lia. clear Hz. revert Hs1 Hz'.
      induction Ha as [|a l Ha _ IH]; cbn [forallb map fold_right]; intros H Hz; constructor; apply andb_prop in H as [H1 H2]; assert (HS := size_pos (snd a));
        assert (0 <= fold_right Z.add 0 (map (fun a : bool * ty => size (snd a)) l)) by (clear; induction l as [|x l IHl]; cbn [map fold_right]; [lia|]; assert (H := size_pos (snd x)); lia).
      - apply Ha; [assumption|lia].
      - apply IH; [assumption|lia]. }
    assert (S := fold_step args Fa Hs2). assert (B := least_size size args Fa). unfold right. cbn [depth size].
    destruct (least (map (fun a => depth (snd a)) args)) as [d|] eqn:El; cbn [option_map].
    + specialize (B d eq_refl). split; [|lia]. intros c. rewrite visit_inst, S. unfold inc. destruct (0 <=? d) eqn:E; lia.
    + rewrite visit_inst, inst_first; [|eapply Forall_impl; [|exact Fa]; intros a R E; unfold right in R; rewrite E in R; exact R|exact El].
      change (noneOrInc mx) with (-1). rewrite S. reflexivity.
Qed.
Lemma least_none (l : list (option Z)) : least l = None -> Forall (fun o => o = None) l.
Proof.
  induction l as [|o l IH]; [constructor|]. change (least (o :: l)) with (omin o (least l)).
  destruct o as [x|]; cbn [omin]; [destruct (least l); discriminate|]. intros H. constructor; [reflexivity|auto].
Qed.
Lemma fold_better_none (l : list ty) : Forall (fun t => depth t = None -> visit t (-1) = -1) l -> least (map depth l) = None ->
  forall m, fold_left (fun m t => better (visit t (-1)) m) l m = m.
Proof.
  intros HF H. apply least_none in H. induction HF as [|t l Ht _ IH]; intros m; [reflexivity|]. cbn [map] in H. inversion H as [|x y E1 E2]; subst.
  cbn [fold_left]. rewrite (Ht E1). apply IH, E2.
Qed.
Theorem visit_mono t : depth t = None -> visit t (-1) = -1.
Proof.
  induction t as [| |t IH|ps rs Hp Hr|ts Ht|args Ha] using ty_ind'; cbn [depth]; intros H.
  - reflexivity.
  - discriminate.
  - cbn [visit]. destruct (depth t); [discriminate|]. rewrite (IH eq_refl). reflexivity.
  - destruct (least (map depth ps)) as [x|] eqn:E1; [destruct (least (map depth rs)); discriminate|]. destruct (least (map depth rs)) eqn:E2; [discriminate|].
    cbn [visit]. rewrite fold_better_none, fold_better_none by assumption. reflexivity.
  - destruct (least (map depth ts)) as [x|] eqn:E1; [discriminate|]. cbn [visit]. rewrite fold_better_none by assumption. reflexivity.
  - destruct (least (map (fun a => depth (snd a)) args)) as [x|] eqn:E1; [discriminate|]. rewrite visit_inst, inst_first by assumption.
    change (noneOrInc mx) with (-1). apply least_none in E1. clear H. assert (fold_left step args (-1) = -1) as ->; [|reflexivity].
    induction Ha as [|[r t] l Ha _ IH]; [reflexivity|]. cbn [map snd] in *. inversion E1 as [|x y F1 F2]; subst. cbn [fold_left step].
    rewrite (Ha F1). assert ((if r then -1 else -1) = -1) as -> by (destruct r; reflexivity). rewrite (Ha F1). apply IH, F2.
Qed.
