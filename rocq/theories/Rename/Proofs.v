From Coq Require Import ZArith List Bool Lia Permutation.
From Verif Require Import Rename.Model Rename.Spec.
Import ListNotations.
Open Scope Z_scope.

Lemma ty_rect2 (P : ty -> Prop) : (forall n k, P (Var n k)) -> (forall c l, Forall P l -> P (Con c l)) -> (forall fa l, Forall P l -> P (Fun fa l)) -> forall t, P t.
Proof.
  intros Hv Hc Hf. fix IH 1. intros [n k|c l|fa l]; [apply Hv|apply Hc|apply Hf]; induction l as [|t l I]; constructor; auto.
Qed.
Definition rnl (md : mode) : st -> list ty -> option (list ty * st) :=
  fix go (s : st) (l : list ty) : option (list ty * st) :=
    match l with
    | [] => Some ([], s)
    | t :: l => match rn md s t with Some (t', s) => match go s l with Some (l', s) => Some (t' :: l', s) | None => None end | None => None end
    end.
Lemma rn_con md s c l : rn md s (Con c l) = match rnl md s l with Some (l', s) => Some (Con c l', s) | None => None end.
Proof. reflexivity. Qed.
Lemma rn_fun0 md s l : rn md s (Fun [] l) = match rnl md s l with Some (l', s) => Some (Fun [] l', s) | None => None end.
Proof. reflexivity. Qed.
Lemma rn_fun md s p fa l : rn md s (Fun (p :: fa) l) =
  match load md ([] :: fst s, snd s) (p :: fa) with
  | Some (fa', s) => match rnl md s l with Some (l', s) => Some (Fun fa' l', (tl (fst s), snd s)) | None => None end
  | None => None
  end.
Proof. reflexivity. Qed.
Lemma rnl_cons md s t l : rnl md s (t :: l) = match rn md s t with Some (t', s) => match rnl md s l with Some (l', s) => Some (t' :: l', s) | None => None end | None => None end.
Proof. reflexivity. Qed.

(** * The map *)
Lemma sfind_none n s : sfind n s = None <-> ~ In n (map fst s).
Proof.
  induction s as [|[m k] s IH]; cbn [sfind map fst In]; [tauto|]. destruct (Nat.eqb_spec n m) as [->|Hn]; [split; [discriminate|tauto]|].
  rewrite IH. split; [intros H [E|E]; [congruence|tauto]|tauto].
Qed.
Lemma find_none n m : find n m = None <-> ~ In n (map fst (concat m)).
Proof.
  induction m as [|s m IH]; cbn [find concat map In]; [tauto|]. rewrite map_app, in_app_iff. destruct (sfind n s) as [k|] eqn:E.
  - split; [discriminate|]. intros H. assert (~ In n (map fst s)) as K by tauto. apply sfind_none in K. congruence.
  - apply sfind_none in E. tauto.
Qed.
Lemma sfind_in n s k : sfind n s = Some k -> In (n, k) s.
Proof. induction s as [|[m x] s IH]; cbn [sfind In]; [discriminate|]. destruct (Nat.eqb_spec n m) as [->|]; [intros [= ->]; auto|auto]. Qed.
Lemma find_in n m k : find n m = Some k -> In (n, k) (concat m).
Proof.
  induction m as [|s m IH]; cbn [find concat]; [discriminate|]. rewrite in_app_iff. destruct (sfind n s) as [x|] eqn:E; [intros [= ->]; left; apply sfind_in, E|auto].
Qed.
Lemma assign_new n k s B : ~ In n (map fst (concat (s :: B))) -> assign n k (s :: B) = (s ++ [(n, k)]) :: B.
Proof. intros H. unfold assign. apply find_none in H. rewrite H. reflexivity. Qed.

(** * New keys *)
Definition fresh (md : mode) (nx : Z) (ks : list key) : list key :=
  match md with Decl => map (fun i => (-1, i)) (zseq nx (length ks)) | Use u => map (fun k => (u, snd k)) ks end.
Definition step (md : mode) (nx : Z) (n : nat) : Z := match md with Decl => nx + Z.of_nat n | Use _ => nx end.
Definition nonzero (md : mode) (ks : list key) : Prop := match md with Decl => True | Use _ => Forall (fun k => snd k <> 0) ks end.
Lemma zseq_app a n m : zseq a (n + m) = zseq a n ++ zseq (a + Z.of_nat n) m.
Proof. revert a. induction n as [|n IH]; intros a; cbn [zseq Nat.add app]; [f_equal; lia|]. rewrite IH. do 3 f_equal. lia. Qed.
Lemma fresh_app md nx a b : fresh md nx (a ++ b) = fresh md nx a ++ fresh md (step md nx (length a)) b.
Proof. destruct md; cbn [fresh step]; [rewrite app_length, zseq_app, map_app; reflexivity|apply map_app]. Qed.
Lemma step_add md nx a b : step md (step md nx a) b = step md nx (a + b).
Proof. destruct md; cbn [step]; lia. Qed.
Lemma nonzero_app md a b : nonzero md (a ++ b) <-> nonzero md a /\ nonzero md b.
Proof. destruct md; cbn [nonzero]; [tauto|apply Forall_app]. Qed.
Lemma load_ok md fa : forall s B nx, NoDup (map fst fa) -> (forall n, In n (map fst fa) -> ~ In n (map fst (concat (s :: B)))) -> nonzero md (map snd fa) ->
  exists fa', load md (s :: B, nx) fa = Some (fa', ((s ++ fa') :: B, step md nx (length fa))) /\ map fst fa' = map fst fa /\ map snd fa' = fresh md nx (map snd fa).
Proof.
  induction fa as [|[n [u i]] fa IH]; intros s B nx Hd Hn Hz.
  - exists []. cbn [load length]. rewrite app_nil_r. destruct md; cbn [step fresh map zseq length]; [rewrite Z.add_0_r|]; auto.
  - inversion Hd as [|x y Hx Hd']; subst. cbn [map fst snd] in *. assert (A : forall k, assign n k (s :: B) = (s ++ [(n, k)]) :: B) by (intros k; apply assign_new, Hn; left; reflexivity).
    assert (N : forall k m, In m (map fst fa) -> ~ In m (map fst (concat ((s ++ [(n, k)]) :: B)))).
    { intros k m Hm. specialize (Hn m (or_intror Hm)). cbn [concat] in *. rewrite !map_app, !in_app_iff in *. cbn [map fst In]. intros [[K|[K|[]]]|K]; [tauto|subst; tauto|tauto]. }
    destruct md as [|u']; cbn [load fst snd].
    + rewrite A. destruct (IH (s ++ [(n, (-1, nx))]) B (nx + 1) Hd' (N _) I) as [fa' [-> [F1 F2]]]. exists ((n, (-1, nx)) :: fa').
      rewrite <- app_assoc. cbn [app step length map fst snd fresh zseq] in *. rewrite F1, F2. repeat split. do 3 f_equal. lia.
    + cbn [nonzero] in Hz. inversion Hz as [|x y Hi Hz']; subst. cbn [snd] in Hi. destruct (Z.eqb_spec i 0); [congruence|]. rewrite A.
      destruct (IH (s ++ [(n, (u', i))]) B nx Hd' (N _) Hz') as [fa' [-> [F1 F2]]]. exists ((n, (u', i)) :: fa').
      rewrite <- app_assoc. cbn [app step length map fst snd fresh] in *. rewrite F1, F2. repeat split.
Qed.

(** * Positions *)
Lemma keqb_spec a b : keqb a b = true <-> a = b.
Proof. destruct a as [a1 a2], b as [b1 b2]. unfold keqb. cbn [fst snd]. rewrite andb_true_iff, !Z.eqb_eq. split; [intros [-> ->]; reflexivity|intros [= -> ->]; auto]. Qed.
Lemma pos_none {A} (eqb : A -> A -> bool) (E : forall x y, eqb x y = true <-> x = y) x f : pos eqb x f = None <-> ~ In x f.
Proof.
  induction f as [|y f IH]; cbn [pos In]; [tauto|]. destruct (eqb x y) eqn:Q; [apply E in Q; split; [discriminate|intros H; exfalso; apply H; auto]|].
  destruct (pos eqb x f) as [p|]; cbn [option_map].
  - split; [discriminate|]. intros H. destruct IH as [_ IH]. assert (~ In x f) by tauto. specialize (IH H0). discriminate.
  - split; [|reflexivity]. intros _ [K|K]; [subst; assert (eqb x x = true) by (apply E; reflexivity); congruence|]. destruct IH as [IH _]. exact (IH eq_refl K).
Qed.
Lemma locate_none {A} (eqb : A -> A -> bool) (E : forall x y, eqb x y = true <-> x = y) x e : locate eqb x e = None <-> ~ In x (concat e).
Proof.
  induction e as [|f e IH]; cbn [locate concat]; [cbn; tauto|]. rewrite in_app_iff. destruct (pos eqb x f) as [p|] eqn:Q.
  - split; [discriminate|]. intros H. assert (~ In x f) as K by tauto. apply (pos_none eqb E) in K. congruence.
  - apply (pos_none eqb E) in Q. destruct (locate eqb x e) as [[d p]|]; [split; [discriminate|intros H; destruct IH as [_ IH]; assert (~ In x (concat e)) by tauto; specialize (IH H0); discriminate]|].
    destruct IH as [IH _]. specialize (IH eq_refl). tauto.
Qed.
Lemma pos_same n k (f : scope) : NoDup (map fst f) -> NoDup (map snd f) -> In (n, k) f -> pos Nat.eqb n (map fst f) = pos keqb k (map snd f).
Proof.
  induction f as [|[m x] f IH]; cbn [map fst snd pos In]; [tauto|]. intros H1 H2 H. inversion H1 as [|a b Ha Hb]; inversion H2 as [|c d Hc Hd]; subst. destruct H as [[= -> ->]|H].
  - rewrite Nat.eqb_refl. assert (keqb k k = true) as -> by (apply keqb_spec; reflexivity). reflexivity.
  - destruct (Nat.eqb_spec n m) as [->|]; [exfalso; apply Ha; apply (in_map fst) in H; exact H|].
    destruct (keqb k x) eqn:E; [apply keqb_spec in E; subst; exfalso; apply Hc; apply (in_map snd) in H; exact H|]. f_equal. auto.
Qed.
Lemma map_concat {A B} (f : A -> B) l : concat (map (map f) l) = map f (concat l).
Proof. symmetry. apply concat_map. Qed.
Lemma NoDup_split {A} (a b : list A) : NoDup (a ++ b) -> NoDup a /\ NoDup b /\ (forall x, In x a -> ~ In x b).
Proof.
  induction a as [|x a IH]; cbn [app]; intros H; [split; [constructor|split; [exact H|intros x []]]|]. inversion H as [|y l Hx Hl]; subst. destruct (IH Hl) as [I1 [I2 I3]].
  rewrite in_app_iff in Hx. split; [constructor; tauto|]. split; [exact I2|]. intros y [<-|Hy]; [tauto|auto].
Qed.
Lemma locate_same n k (F : list scope) : NoDup (map fst (concat F)) -> NoDup (map snd (concat F)) -> In (n, k) (concat F) ->
  locate Nat.eqb n (map (map fst) F) = locate keqb k (map (map snd) F).
Proof.
  induction F as [|f F IH]; cbn [concat map locate]; [intros _ _ []|]. rewrite !map_app, in_app_iff. intros H1 H2 H.
  destruct (NoDup_split _ _ H1) as [A1 [A2 A3]]. destruct (NoDup_split _ _ H2) as [B1 [B2 B3]]. destruct H as [H|H].
  - rewrite (pos_same n k f A1 B1 H). destruct (pos keqb k (map snd f)) as [p|] eqn:E; [reflexivity|]. apply (pos_none _ keqb_spec) in E. exfalso. apply E. apply (in_map snd) in H. exact H.
  - assert (pos Nat.eqb n (map fst f) = None) as ->.
    { apply (pos_none _ Nat.eqb_eq). intros K. apply (A3 _ K). apply (in_map fst) in H. exact H. }
    assert (pos keqb k (map snd f) = None) as ->.
    { apply (pos_none _ keqb_spec). intros K. apply (B3 _ K). apply (in_map snd) in H. exact H. }
    rewrite (IH A2 B2 H). reflexivity.
Qed.

(** * The theorem *)
Definition formal (md : mode) (isnew : key -> Prop) (b : bool) (k : key) : Prop := if b then (match md with Use _ => fst k <> 0 | Decl => True end) else ~ isnew k.
Section Rn.
Context (md : mode) (isnew : key -> Prop).
Definition env_ok (F : list scope) (nx : Z) (ks : list key) : Prop :=
  NoDup (map fst (concat F)) /\ NoDup (map snd (concat F) ++ fresh md nx ks) /\ (forall k, In k (map snd (concat F) ++ fresh md nx ks) -> isnew k) /\ nonzero md ks.
Definition good (t : ty) : Prop := forall F nx, env_ok F nx (keys t) -> apart (map fst (concat F)) t -> vars (formal md isnew) (map fst (concat F)) t ->
  exists t', rn md (F ++ [[]], nx) t = Some (t', (F ++ [[]], step md nx (length (keys t)))) /\ by_key (map (map snd) F) t' = by_name (map (map fst) F) t /\ keys t' = fresh md nx (keys t).
Lemma env_app F nx a b : env_ok F nx (a ++ b) -> env_ok F nx a /\ env_ok F (step md nx (length a)) b.
Proof.
  intros [H1 [H2 [H3 H4]]]. rewrite fresh_app in H2, H3. apply nonzero_app in H4 as [H4 H5]. unfold env_ok. split.
  - rewrite app_assoc in H2. apply NoDup_split in H2 as [H2 _]. repeat split; auto. intros k Hk. apply H3. rewrite app_assoc, in_app_iff. auto.
  - split; [exact H1|]. destruct (NoDup_split _ _ H2) as [N1 [N2 N3]]. destruct (NoDup_split _ _ N2) as [_ [N5 _]]. repeat split; auto.
    + clear - N1 N5 N3. induction (map snd (concat F)) as [|x l IH]; [exact N5|]. cbn [app]. inversion N1 as [|y z Hx Hl]; subst. constructor.
      * rewrite in_app_iff. intros [K|K]; [tauto|]. apply (N3 x); [left; reflexivity|]. apply in_app_iff. auto.
      * apply IH; [exact Hl|]. intros y Hy. apply N3. right. exact Hy.
    + intros k Hk. apply H3. rewrite !in_app_iff in *. tauto.
Qed.
Lemma rnl_good l : Forall good l -> forall F nx, env_ok F nx (flat_map keys l) -> fold_right (fun t P => apart (map fst (concat F)) t /\ P) True l ->
  fold_right (fun t P => vars (formal md isnew) (map fst (concat F)) t /\ P) True l ->
  exists l', rnl md (F ++ [[]], nx) l = Some (l', (F ++ [[]], step md nx (length (flat_map keys l)))) /\ map (by_key (map (map snd) F)) l' = map (by_name (map (map fst) F)) l /\
    flat_map keys l' = fresh md nx (flat_map keys l).
Proof.
  induction 1 as [|t l Ht _ IH]; intros F nx HE HA HV.
  - exists []. cbn [flat_map length map]. split; [|split; [reflexivity|destruct md; reflexivity]]. change (rnl md (F ++ [[]], nx) []) with (Some (@nil ty, (F ++ [[]], nx))). destruct md; cbn [step]; [|reflexivity]. do 3 f_equal. lia.
  - cbn [flat_map fold_right] in *. destruct HA as [HA1 HA2]. destruct HV as [HV1 HV2]. destruct (env_app _ _ _ _ HE) as [E1 E2].
    destruct (Ht F nx E1 HA1 HV1) as [t' [R1 [B1 K1]]]. destruct (IH F _ E2 HA2 HV2) as [l' [R2 [B2 K2]]]. exists (t' :: l').
    rewrite rnl_cons, R1, R2, step_add, app_length. split; [reflexivity|]. cbn [map flat_map]. rewrite B1, B2, K1, K2, fresh_app. split; reflexivity.
Qed.
Lemma find_outer n (F : list scope) : find n (F ++ [[]]) = find n F.
Proof. induction F as [|s F IH]; cbn [app find sfind]; [reflexivity|]. rewrite IH. reflexivity. Qed.
Lemma var_cases F nx n k : env_ok F nx [] -> vars (formal md isnew) (map fst (concat F)) (Var n k) ->
  exists k', rename_var md (F ++ [[]], nx) n k = Var n k' /\ by_key (map (map snd) F) (Var n k') = by_name (map (map fst) F) (Var n k).
Proof.
  intros [H1 [H2 [H3 _]]] HV. cbn [vars] in HV. apply NoDup_split in H2 as [H2 _]. cbn [by_key by_name].
  assert (L : forall m k', In (m, k') (concat F) -> locate Nat.eqb m (map (map fst) F) <> None).
  { intros m k' Hm K. apply (locate_none _ Nat.eqb_eq) in K. apply K. rewrite map_concat. apply (in_map fst) in Hm. exact Hm. }
  destruct (find n F) as [k'|] eqn:E.
  - assert (Hin := find_in _ _ _ E). assert (HE : existsb (Nat.eqb n) (map fst (concat F)) = true).
    { apply existsb_exists. exists n. split; [apply (in_map fst) in Hin; exact Hin|apply Nat.eqb_refl]. }
    rewrite HE in HV. cbn [formal] in HV. exists k'. split.
    + unfold rename_var. cbn [fst]. rewrite find_outer, E. destruct md; [reflexivity|]. destruct (Z.eqb_spec (fst k) 0); [congruence|reflexivity].
    + rewrite <- (locate_same n k' F H1 H2 Hin). destruct (locate Nat.eqb n (map (map fst) F)) as [[d p]|] eqn:Q; [reflexivity|]. exfalso. exact (L _ _ Hin Q).
  - assert (HN := proj1 (find_none _ _) E). assert (HE : existsb (Nat.eqb n) (map fst (concat F)) = false).
    { destruct (existsb (Nat.eqb n) (map fst (concat F))) eqn:Q; [|reflexivity]. apply existsb_exists in Q as [x [Hx Q]]. apply Nat.eqb_eq in Q. subst. tauto. }
    rewrite HE in HV. cbn [formal] in HV. exists k. split.
    + unfold rename_var. cbn [fst]. rewrite find_outer, E. destruct md; [reflexivity|]. destruct (fst k =? 0); reflexivity.
    + assert (locate keqb k (map (map snd) F) = None) as ->.
      { apply (locate_none _ keqb_spec). rewrite map_concat. intros K. apply HV, H3. apply in_app_iff. auto. }
      assert (locate Nat.eqb n (map (map fst) F) = None) as ->; [|reflexivity]. apply (locate_none _ Nat.eqb_eq). rewrite map_concat. exact HN.
Qed.
Lemma step0 nx : step md nx 0 = nx.
Proof. destruct md; cbn [step]; lia. Qed.
Lemma rn_good t : good t.
Proof.
  induction t as [n k|c l IH|fa l IH] using ty_rect2; intros F nx HE HA HV.
  - destruct (var_cases F nx n k HE HV) as [k' [E B]]. exists (Var n k'). split; [|split; [exact B|destruct md; reflexivity]].
    change (rn md (F ++ [[]], nx) (Var n k)) with (Some (rename_var md (F ++ [[]], nx) n k, (F ++ [[]], nx))). rewrite E. cbn [keys length]. rewrite step0. reflexivity.
  - cbn [keys apart vars] in *. destruct (rnl_good l IH F nx HE HA HV) as [l' [R [B K]]]. exists (Con c l'). rewrite rn_con, R. cbn [by_key by_name keys]. rewrite B, K. auto.
  - destruct fa as [|p fa].
    + cbn [keys apart vars map app] in *. destruct HA as [_ [_ HA]]. destruct (rnl_good l IH F nx HE HA HV) as [l' [R [B K]]]. exists (Fun [] l'). rewrite rn_fun0, R. cbn [by_key by_name keys map app length]. rewrite B, K. auto.
    + remember (p :: fa) as fb eqn:Efb. cbn [keys apart vars] in HE, HA, HV. destruct HA as [HA1 [HA2 HA3]]. destruct (env_app _ _ _ _ HE) as [E1 E2].
      assert (Hnew : forall n, In n (map fst fb) -> ~ In n (map fst (concat ([] :: F ++ [[]])))).
      { intros n Hn. cbn [concat app]. rewrite concat_app. cbn [concat]. rewrite !app_nil_r. apply HA2, Hn. }
      destruct (load_ok md fb [] (F ++ [[]]) nx HA1 Hnew (proj2 (proj2 (proj2 E1)))) as [fb' [L [L1 L2]]]. cbn [app] in L.
      assert (Lb : length fb' = length fb) by (rewrite <- (map_length fst fb'), L1, map_length; reflexivity).
      assert (E3 : env_ok (fb' :: F) (step md nx (length (map snd fb))) (flat_map keys l)).
      { destruct HE as [G1 [G2 [G3 G4]]]. rewrite fresh_app in G2, G3. apply nonzero_app in G4 as [_ G4]. unfold env_ok. cbn [concat]. rewrite !map_app, L1, L2. repeat split.
        - clear - HA1 HA2 G1. induction HA1 as [|x a Hx _ IHn]; [exact G1|]. cbn [app]. constructor; [|apply IHn; intros n Hn; apply HA2; right; exact Hn].
          rewrite in_app_iff. intros [K|K]; [tauto|]. apply (HA2 x (or_introl eq_refl) K).
        - eapply Permutation_NoDup; [|exact G2]. rewrite !app_assoc. apply Permutation_app_tail. apply Permutation_app_comm.
        - intros k Hk. apply G3. rewrite !in_app_iff in *. tauto.
        - exact G4. }
      assert (N3 : map fst (concat (fb' :: F)) = map fst fb ++ map fst (concat F)) by (cbn [concat]; rewrite map_app, L1; reflexivity).
      rewrite <- N3 in HA3, HV. destruct (rnl_good l IH (fb' :: F) _ E3 HA3 HV) as [l' [R [B K]]]. exists (Fun fb' l').
      assert (Ef : rn md (F ++ [[]], nx) (Fun fb l) = match load md ([] :: F ++ [[]], nx) fb with Some (fa', s) => match rnl md s l with Some (l', s) => Some (Fun fa' l', (tl (fst s), snd s)) | None => None end | None => None end).
      { rewrite Efb. apply rn_fun. }
      rewrite Ef, L. rewrite map_length in R. cbn [app] in R. rewrite R. cbn [fst snd tl]. split; [|split].
      * cbn [keys]. rewrite app_length, map_length, step_add. reflexivity.
      * cbn [by_key by_name]. cbn [map] in B. rewrite L1 in B. rewrite Lb. destruct fb' as [|q fb']; [subst fb; discriminate Lb|]. f_equal. etransitivity; [exact B|]. rewrite Efb. reflexivity.
      * cbn [keys]. rewrite fresh_app, L2, K. reflexivity.
Qed.
End Rn.
