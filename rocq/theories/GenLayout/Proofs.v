From Coq Require Import ZArith List Bool Lia ZifyBool.
From Verif.GenLayout Require Import Model Spec.
Import ListNotations.
Open Scope Z_scope.
Lemma pow2_pos a : pow2 a -> 1 <= a < two64.
Proof. intros (k & K & ->). unfold two64. assert (0 < 2 ^ k) by (apply Z.pow_pos_nonneg; lia). assert (2 ^ k < 2 ^ 64) by (apply Z.pow_lt_mono_r; lia). lia. Qed.
Lemma w_id x : 0 <= x < two64 -> w x = x.
Proof. intros; apply Z.mod_small; auto. Qed.
Lemma up_spec e a : 0 < a -> e <= up e a < e + a /\ (a | up e a).
Proof.
  intros A. unfold up. split; [|exists ((e + a - 1) / a); reflexivity]. pose proof (Z.div_mod (e + a - 1) a ltac:(lia)). pose proof (Z.mod_pos_bound (e + a - 1) a A). nia.
Qed.
Lemma up_least e a x : 0 < a -> e <= x -> (a | x) -> up e a <= x.
Proof.
  intros A L [q ->]. unfold up. assert ((e + a - 1) / a < q + 1) by (apply Z.div_lt_upper_bound; nia). nia.
Qed.
Lemma up_0 a : 0 < a -> up 0 a = 0.
Proof. intros A. pose proof (up_spec 0 a A). assert (up 0 a <= 0) by (apply up_least; [lia|lia|exists 0; lia]). lia. Qed.
Lemma align_to_up e a : pow2 a -> 0 <= e -> up e a < two64 -> align_to e a = up e a.
Proof.
  intros P E U. pose proof (pow2_pos a P) as B. destruct P as (k & K & ->). unfold align_to. rewrite (w_id (2 ^ k - 1)) by lia. replace (2 ^ k - 1) with (Z.ones k) by (rewrite Z.ones_equiv; lia). rewrite Z.land_ones by lia. cbv zeta.
  set (a := 2 ^ k) in *. pose proof (Z.mod_pos_bound e a ltac:(lia)) as M. pose proof (Z.div_mod e a ltac:(lia)) as D. destruct (up_spec e a ltac:(lia)) as [U1 U2].
  destruct (Z.eqb_spec (e mod a) 0) as [Q|Q].
  - assert (up e a <= e) by (apply up_least; [lia|lia|exists (e / a); nia]). lia.
  - assert (V : up e a = e + (a - e mod a)).
    { unfold up. replace (e + a - 1) with ((e / a + 1) * a + (e mod a - 1)) by nia. rewrite Z.div_add_l by lia. rewrite (Z.div_small (e mod a - 1)) by lia. nia. }
    rewrite (w_id (a - e mod a)) by lia. rewrite w_id; lia.
Qed.
Lemma assign_max_max x y : assign_max x y = Z.max x y.
Proof. unfold assign_max. destruct (Z.ltb_spec x y); lia. Qed.
Definition mok (m : Z * Z) : Prop := 0 <= fst m /\ pow2 (snd m).
Lemma ends_ge ms : Forall mok ms -> forall e, e <= ends e ms.
Proof.
  induction 1 as [|[s a] ms [Hs Ha] F IH]; intros e; cbn [ends fst snd] in *; [lia|]. pose proof (IH (up e a + s)). pose proof (pow2_pos a Ha). pose proof (up_spec e a ltac:(lia)). lia.
Qed.
Lemma widest_pow2 ms : Forall mok ms -> pow2 (widest ms).
Proof.
  induction 1 as [|[s a] ms [Hs Ha] F IH]; cbn [widest fold_right snd fst] in *; [exists 0; lia|]. fold (widest ms). destruct (Z.max_spec a (widest ms)) as [[_ ->]|[_ ->]]; auto.
Qed.
Lemma widest_max ms : fold_left (fun x m => assign_max x (snd m)) ms 1 = widest ms.
Proof.
  enough (G : forall x, 1 <= x -> fold_left (fun x m => assign_max x (snd m)) ms x = Z.max x (widest ms)).
  { rewrite G by lia. clear G. unfold widest. induction ms as [|m ms IH]; cbn [fold_right]; lia. }
  induction ms as [|m ms IH]; intros x X; cbn [fold_left widest fold_right]; [lia|]. rewrite assign_max_max, IH by lia. fold (widest ms). lia.
Qed.
Lemma body_ok ms : Forall mok ms -> forall idx e al offs, 0 <= e -> (idx = O -> e = 0) -> ends e ms < two64 -> up (ends e ms) (fold_left (fun x m => assign_max x (snd m)) ms al) < two64 -> pow2 al ->
  struct_body idx ms e al offs = (up (ends e ms) (fold_left (fun x m => assign_max x (snd m)) ms al), fold_left (fun x m => assign_max x (snd m)) ms al, offs ++ place e ms).
Proof.
  induction 1 as [|[s a] ms [Hs Ha] F IH]; intros idx e al offs E I L U P; cbn [struct_body ends fold_left place fst snd] in *.
  - rewrite align_to_up by auto. rewrite app_nil_r. reflexivity.
  - pose proof (pow2_pos a Ha). pose proof (up_spec e a ltac:(lia)) as [X1 X2]. pose proof (ends_ge ms F (up e a + s)).
    assert (Q : (if (0 <? idx)%nat then align_to e a else e) = up e a).
    { destruct (Nat.ltb_spec 0 idx); [apply align_to_up; auto; lia|]. rewrite I by lia. rewrite up_0; lia. }
    rewrite Q. rewrite w_id by lia. rewrite IH; auto; try lia.
    + rewrite <- app_assoc. reflexivity.
    + rewrite assign_max_max. destruct (Z.max_spec al a) as [[_ ->]|[_ ->]]; auto.
Qed.
Lemma struct_ok ms : Forall mok ms -> up (ends 0 ms) (widest ms) < two64 -> struct_body 0 ms 0 1 [] = (up (ends 0 ms) (widest ms), widest ms, place 0 ms).
Proof.
  intros F U. pose proof (widest_pow2 ms F) as W. pose proof (pow2_pos _ W). pose proof (up_spec (ends 0 ms) (widest ms) ltac:(lia)). rewrite body_ok; auto; rewrite ?widest_max; try lia; [reflexivity|]. exists 0; lia.
Qed.
Lemma ubody_ok ms : Forall mok ms -> forall e al, 0 <= e -> pow2 al -> up (Z.max e (largest ms)) (Z.max al (widest ms)) < two64 -> union_body ms e al = (up (Z.max e (largest ms)) (Z.max al (widest ms)), Z.max al (widest ms)).
Proof.
  induction 1 as [|[s a] ms [Hs Ha] F IH]; intros e al E P U; cbn [union_body largest widest fold_right fst snd] in *.
  - pose proof (pow2_pos al P). rewrite (Z.max_l al 1), (Z.max_l e 0) in * by lia. rewrite align_to_up; auto.
  - fold (largest ms) (widest ms) in *. rewrite !assign_max_max. rewrite IH.
    + f_equal; [f_equal|]; lia.
    + lia.
    + destruct (Z.max_spec al a) as [[_ ->]|[_ ->]]; auto.
    + eapply Z.le_lt_trans; [|exact U]. apply Z.eq_le_incl. f_equal; lia.
Qed.
Lemma largest_nonneg ms : 0 <= largest ms.
Proof. induction ms as [|m ms IH]; cbn [largest fold_right]; [lia|]. fold (largest ms). lia. Qed.
Lemma union_ok ms : Forall mok ms -> 0 < up (largest ms) (widest ms) < two64 -> union_body ms 1 1 = (up (largest ms) (widest ms), widest ms).
Proof.
  intros F U. pose proof (widest_pow2 ms F) as W. pose proof (pow2_pos _ W) as B. pose proof (largest_nonneg ms). assert (0 < largest ms) by (destruct (Z.eq_dec (largest ms) 0) as [Q|Q]; [rewrite Q, up_0 in U; lia|lia]).
  assert (Z.max 1 (largest ms) = largest ms) by lia. assert (Z.max 1 (widest ms) = widest ms) by lia. rewrite ubody_ok; auto; [congruence|lia|exists 0; lia|]. replace (Z.max 1 (largest ms)) with (largest ms) by lia. replace (Z.max 1 (widest ms)) with (widest ms) by lia. lia.
Qed.
(** induction over types *)
Lemma ty_induction (P : ty -> Prop) : (forall s a, P (Basic s a)) -> (forall i, P (Param i)) -> (forall n t, P t -> P (Arr n t)) -> (forall ts, Forall P ts -> P (Struct ts)) -> (forall ts, Forall P ts -> P (Union ts)) -> forall t, P t.
Proof. intros H1 H2 H3 H4 H5. fix IH 1. intros [s a|i|n t|ts|ts]; [apply H1|apply H2|apply H3, IH|apply H4|apply H5]; (induction ts as [|t ts IHt]; constructor; [apply IH|exact IHt]). Qed.
Lemma wf_list ts : (fix go ts := match ts with [] => True | t :: r => wf t /\ go r end) ts <-> Forall wf ts.
Proof. induction ts as [|t ts IH]; [split; [constructor|intros; exact I]|]. split; [intros [H1 H2]; constructor; tauto|intros H; inversion H; subst; tauto]. Qed.
Lemma small_list ts : (fix go ts := match ts with [] => True | t :: r => small t /\ go r end) ts <-> Forall small ts.
Proof. induction ts as [|t ts IH]; [split; [constructor|intros; exact I]|]. split; [intros [H1 H2]; constructor; tauto|intros H; inversion H; subst; tauto]. Qed.
Lemma solid_list ts : (fix go ts := match ts with [] => True | t :: r => solid t /\ go r end) ts <-> Forall solid ts.
Proof. induction ts as [|t ts IH]; [split; [constructor|intros; exact I]|]. split; [intros [H1 H2]; constructor; tauto|intros H; inversion H; subst; tauto]. Qed.
Lemma c_mok t : wf t -> mok (c_layout t).
Proof.
  induction t as [s a|i|n t IH|ts IH|ts IH] using ty_induction; intros W; cbn [wf c_layout] in *.
  - split; cbn [fst snd]; [lia|tauto].
  - split; cbn [fst snd]; [lia|exists 0; lia].
  - destruct W as [N W]. destruct (c_layout t) as [s a]. destruct (IH W). split; cbn [fst snd] in *; [nia|auto].
  - rewrite wf_list in W. assert (F : Forall mok (map c_layout ts)) by (rewrite Forall_map; rewrite Forall_forall in *; auto). pose proof (widest_pow2 _ F) as P. pose proof (pow2_pos _ P). split; cbn [fst snd]; auto. pose proof (ends_ge _ F 0). pose proof (up_spec (ends 0 (map c_layout ts)) (widest (map c_layout ts)) ltac:(lia)). lia.
  - rewrite wf_list in W. assert (F : Forall mok (map c_layout ts)) by (rewrite Forall_map; rewrite Forall_forall in *; auto). pose proof (widest_pow2 _ F) as P. pose proof (pow2_pos _ P). split; cbn [fst snd]; auto. pose proof (largest_nonneg (map c_layout ts)). pose proof (up_spec (largest (map c_layout ts)) (widest (map c_layout ts)) ltac:(lia)). lia.
Qed.
Lemma inst_closed f t : closed t = true -> inst f t = t.
Proof.
  induction t as [s a|i|n t IH|ts IH|ts IH] using ty_induction; cbn [closed inst]; intros H; auto; try discriminate; f_equal; auto;
    rewrite forallb_forall in H; rewrite Forall_forall in IH; rewrite <- (map_id ts) at 2; apply map_ext_in; auto.
Qed.
Lemma inst_wf f t : wf t -> (forall i, wf (f i)) -> wf (inst f t).
Proof.
  intros W F. induction t as [s a|i|n t IH|ts IH|ts IH] using ty_induction; cbn [wf inst] in *; auto; [tauto| |]; rewrite wf_list in *; rewrite Forall_map; rewrite Forall_forall in *; auto.
Qed.
Lemma dyn_ok f t : wf t -> (forall i, wf (f i)) -> small (inst f t) -> solid (inst f t) -> dyn (fun i => c_layout (f i)) t = c_layout (inst f t).
Proof.
  intros W F. induction t as [s a|i|n t IH|ts IH|ts IH] using ty_induction; intros S1 S2; cbn [dyn]; (match goal with |- (if ?b then _ else _) = _ => destruct b eqn:C end; [rewrite inst_closed by exact C; reflexivity|]); cbn [inst wf] in *; auto.
  - cbn [solid] in S2. cbn [c_layout small] in *. destruct W as [N W]. destruct S1 as [S0 S1]. rewrite IH by auto. pose proof (c_mok (inst f t) (inst_wf f t W F)) as [M1 M2]. destruct (c_layout (inst f t)) as [s a]. cbn [fst snd] in *. rewrite w_id by nia. reflexivity.
  - rewrite wf_list in W. cbn [small solid] in S1, S2. destruct S1 as [S0 S1]. rewrite small_list, Forall_map in S1. rewrite solid_list, Forall_map in S2.
    assert (Q : map (dyn (fun i => c_layout (f i))) ts = map c_layout (map (inst f) ts)) by (rewrite map_map; apply map_ext_in; rewrite Forall_forall in *; auto). rewrite Q. cbn [c_layout fst] in *.
    rewrite struct_ok; auto. rewrite Forall_map. rewrite Forall_map. rewrite Forall_forall in *. intros t T. apply c_mok, inst_wf; auto.
  - rewrite wf_list in W. cbn [small solid] in S1, S2. destruct S1 as [S0 S1]. destruct S2 as [S3 S2]. rewrite small_list, Forall_map in S1. rewrite solid_list, Forall_map in S2.
    assert (Q : map (dyn (fun i => c_layout (f i))) ts = map c_layout (map (inst f) ts)) by (rewrite map_map; apply map_ext_in; rewrite Forall_forall in *; auto). rewrite Q. cbn [c_layout fst] in *.
    rewrite union_ok; auto. rewrite Forall_map. rewrite Forall_map. rewrite Forall_forall in *. intros t T. apply c_mok, inst_wf; auto.
Qed.
Lemma offsets_ok f ts : wf (Struct ts) -> (forall i, wf (f i)) -> small (inst f (Struct ts)) -> solid (inst f (Struct ts)) -> dyn_offsets (fun i => c_layout (f i)) ts = place 0 (map c_layout (map (inst f) ts)).
Proof.
  intros W F S1 S2. unfold dyn_offsets. cbn [inst wf small solid] in *. destruct S1 as [S0 S1]. rewrite wf_list in W. rewrite small_list, Forall_map in S1. rewrite solid_list, Forall_map in S2.
  assert (Q : map (dyn (fun i => c_layout (f i))) ts = map c_layout (map (inst f) ts)) by (rewrite map_map; apply map_ext_in; rewrite Forall_forall in *; intros; apply dyn_ok; auto). rewrite Q. cbn [c_layout fst] in S0. rewrite struct_ok; auto.
  rewrite Forall_map. rewrite Forall_map. rewrite Forall_forall in *. intros t T. apply c_mok, inst_wf; auto.
Qed.
Lemma pow2_le_div a b : pow2 a -> pow2 b -> a <= b -> (a | b).
Proof.
  intros (j & J & ->) (k & K & ->) L. assert (j <= k) by (apply (Z.pow_le_mono_r_iff 2); lia). exists (2 ^ (k - j)). rewrite <- Z.pow_add_r by lia. f_equal. lia.
Qed.
Lemma widest_div ms : Forall mok ms -> Forall (fun m => (snd m | widest ms)) ms.
Proof.
  intros F. pose proof (widest_pow2 ms F) as W. rewrite Forall_forall in *. intros m M. apply pow2_le_div; auto; [apply F; auto|]. clear F W. induction ms as [|x ms IH]; [destruct M|]. cbn [widest fold_right]. fold (widest ms). destruct M as [->|M]; [lia|]. specialize (IH M). lia.
Qed.
