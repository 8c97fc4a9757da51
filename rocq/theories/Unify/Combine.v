(** Combining environments that fit. *)
From Coq Require Import List Bool Arith Lia Relation_Operators Permutation.
From Verif Require Import Unify.Model Unify.Spec Unify.Proofs Unify.Sound Unify.Vars.
Import ListNotations.
Definition all (_ : nat) : Prop := True.
(** * Classes apart, cycles or not *)
Record okw (E : env) : Prop := { w_ids : NoDup (map id E); w_one : forall c c' v, In c E -> In c' E -> In v (vars c) -> In v (vars c') -> c = c' }.
Lemma ok_okw : forall E, ok_env E -> okw E.
Proof. intros E O. split; [exact (e_ids O)|exact (e_one O)]. Qed.
Lemma lookup_w : forall E c v, okw E -> In c E -> In v (vars c) -> lookup E v = Some c.
Proof.
  intros E c v O I M. destruct (lookup E v) as [c'|] eqn:L.
  - apply lookup_some in L as [I' M']. f_equal. exact (w_one _ O c' c v I' I M' M).
  - exfalso. exact (proj1 (lookup_none _ _) L c I M).
Qed.
Lemma occ_sound_w : forall E c, okw E -> In c E -> forall f t, occ f E (vars c) t = Some false -> ~ reach E (tvars t) (id c).
Proof.
  intros E c O Ic f t H (v & i & V & K & P). revert f t v V K H. remember (id c) as k eqn:Q. induction P as [x|x y z R P IH]; intros f t v V K H; subst.
  - destruct f as [|f]; [discriminate|]. cbn [occ] in H.
    assert (M : In v (vars c)). { destruct K as (c' & I' & M' & J). pose proof (@ids_inj E c' c (w_ids _ O) I' Ic J) as ->. auto. }
    pose proof (@orall_false _ H _ (in_map _ _ _ V)) as F. cbv beta in F. apply mem_In in M. rewrite M in F. discriminate.
  - destruct f as [|f]; [discriminate|]. cbn [occ] in H.
    pose proof (@orall_false _ H _ (in_map _ _ _ V)) as F. cbv beta in F. destruct (mem v (vars c)); [discriminate|].
    destruct R as (c' & b & u & I' & J & B & U & K'). destruct K as (c'' & I'' & M'' & J'').
    assert (c'' = c') as -> by (eapply ids_inj; [exact (w_ids _ O)| | |]; auto; congruence).
    rewrite (@lookup_w _ _ v O I' M''), B in F. exact (IH eq_refl f b u U K' F).
Qed.
Lemma get_w : forall E c, NoDup (map id E) -> In c E -> get E (id c) = Some c.
Proof. exact get_in. Qed.
Lemma put_put : forall E c c', id c = id c' -> put (put E c) c' = put E c'.
Proof.
  intros E c c' H. unfold put. rewrite map_map. apply map_ext. intros x. destruct (Nat.eqb (id x) (id c)) eqn:A.
  - rewrite H in A. rewrite A, H, Nat.eqb_refl. reflexivity.
  - rewrite H in A. rewrite A. reflexivity.
Qed.
Lemma get_put : forall E c k, NoDup (map id E) -> In k E -> id c = id k -> get (put E c) (id k) = Some c.
Proof. intros E c k N I H. rewrite <- H. apply get_in; [rewrite ids_put; exact N|]. apply (@in_put E c k c I); auto. Qed.
(** * The loops over the variables *)
Definition grown (k : cls) (vs : list nat) : cls := C (id k) (add_vars (vars k) vs) (bound k) (allow k).
Lemma grown_nil : forall E k, NoDup (map id E) -> In k E -> put E (grown k []) = E.
Proof. intros E k N I. apply put_same; auto. destruct k; exact I. Qed.
Lemma grown_app : forall k l m, grown (grown k l) m = grown k (l ++ m).
Proof. intros. unfold grown, add_vars. cbn [id vars bound allow]. rewrite fold_left_app. reflexivity. Qed.
Lemma emplace_ret : forall d f vs E k E', NoDup (map id E) -> In k E -> emplace d f (id k) vs E = Ret E' true ->
  E' = put E (grown k vs) /\ forall b l u m, bound k = Some b -> vs = l ++ u :: m -> occurs f (put E (grown k l)) b u = Some false.
Proof.
  induction vs as [|u vs IH]; intros E k E' N I H; cbn [emplace] in H.
  - injection H as <-. rewrite grown_nil by auto. split; [reflexivity|]. intros b l u m _ K. destruct l; discriminate K.
  - rewrite (@get_in E k N I) in H. destruct (match bound k with Some b => occurs f E b u | None => Some false end) as [[|]|] eqn:Q; try discriminate H.
    change (C (id k) (add_var (vars k) u) (bound k) (allow k)) with (grown k [u]) in H.
    assert (N1 : NoDup (map id (put E (grown k [u])))) by (rewrite ids_put; exact N).
    assert (I1 : In (grown k [u]) (put E (grown k [u]))) by (apply (@in_put E (grown k [u]) k _ I); auto).
    destruct (IH _ _ _ N1 I1 H) as [A B]. rewrite grown_app, put_put in A by reflexivity. split; [exact A|].
    intros b l w m Bk K. destruct l as [|x l]; injection K as -> K.
    + rewrite grown_nil, Bk in * by auto. exact Q.
    + specialize (B b l w m Bk K). rewrite grown_app, put_put in B by reflexivity. exact B.
Qed.
Lemma add_var_in : forall l v, In v l -> add_var l v = l.
Proof. intros l v I. unfold add_var. apply mem_In in I. rewrite I. reflexivity. Qed.
Lemma later_ret : forall d f vs E k E', okw E -> In k E -> (forall u c, In u vs -> lookup E u = Some c -> c = k) -> later d f (id k) vs E = Ret E' true -> E' = put E (grown k vs).
Proof.
  induction vs as [|u vs IH]; intros E k E' O I U H; cbn [later] in H.
  - injection H as <-. rewrite grown_nil; auto. apply O.
  - destruct (lookup E u) as [c|] eqn:L.
    + pose proof (U u c (or_introl eq_refl) L) as ->. rewrite Nat.eqb_refl in H. apply lookup_some in L as [_ M].
      apply IH in H; auto; [|intros; eapply U; [right|]; eauto]. rewrite H. f_equal. unfold grown, add_vars. cbn [fold_left]. rewrite (add_var_in _ _ M). reflexivity.
    + destruct (emplace d f (id k) [u] E) as [| | |E1 ok] eqn:EM; try discriminate H. cbn [bind] in H. destruct ok; [|discriminate H].
      destruct (emplace_ret _ _ _ _ _ _ (w_ids _ O) I EM) as [-> _]. set (k1 := grown k [u]) in *.
      assert (I1 : In k1 (put E k1)) by (apply (@in_put E k1 k _ I); auto).
      assert (V1 : forall v, In v (vars k1) <-> In v (vars k) \/ v = u) by (intros v; apply add_var_In).
      assert (IN : forall x, In x (put E k1) -> x = k1 \/ In x E /\ id x <> id k) by (intros x J; apply (@in_put E k1 k x I) in J; auto).
      assert (NU : forall x, In x E -> ~ In u (vars x)) by (apply lookup_none; exact L).
      assert (O1 : okw (put E k1)).
      { split; [rewrite ids_put; apply O|]. intros c c' v J J' M M'. apply IN in J as [->|[J D]], J'  as [->|[J' D']]; auto.
        - apply V1 in M as [M| ->]; [|destruct (NU c' J' M')]. pose proof (w_one _ O k c' v I J' M M') as <-. congruence.
        - apply V1 in M' as [M'| ->]; [|destruct (NU c J M)]. pose proof (w_one _ O k c v I J M' M) as <-. congruence.
        - exact (w_one _ O c c' v J J' M M'). }
      change (id k) with (id k1) in H. apply IH in H; auto.
      * rewrite H. unfold k1. rewrite grown_app, put_put by reflexivity. reflexivity.
      * intros w c J K. assert (K' := K). apply lookup_some in K' as [J1 M]. apply IN in J1 as [->|[J1 D]]; auto. exfalso. apply D. f_equal. apply (U w c (or_intror J)). apply lookup_w; auto.
Qed.
Lemma split_none : forall E vs, split_vars E vs = None -> forall v, In v vs -> lookup E v = None.
Proof.
  induction vs as [|x vs IH]; intros H v I. destruct I. cbn [split_vars] in H. destruct (lookup E x) eqn:L; [discriminate|]. destruct (split_vars E vs) as [[[b i] a]|] eqn:S; [discriminate|].
  destruct I as [<-|I]; auto.
Qed.
Lemma split_some : forall E vs b i a, split_vars E vs = Some (b, i, a) -> exists v k, vs = b ++ v :: a /\ lookup E v = Some k /\ id k = i /\ forall u, In u b -> lookup E u = None.
Proof.
  induction vs as [|x vs IH]; intros b i a H. discriminate. cbn [split_vars] in H. destruct (lookup E x) as [k|] eqn:L.
  - injection H as <- <- <-. exists x, k. repeat split; auto. intros u [].
  - destruct (split_vars E vs) as [[[b' i'] a']|] eqn:S; [|discriminate]. injection H as <- <- <-. destruct (IH _ _ _ eq_refl) as (v & k & -> & A & B & D). exists v, k. repeat split; auto.
    intros u [<-|I]; auto.
Qed.
(** * What merging one class gives *)
Record merged (d : decls) (E E' : env) (c : cls) : Prop := {
  r_ok : ok_env E';
  r_plain : plain_env d E';
  r_names : names_ok d E';
  r_allow : noallow E';
  r_dom : forall v, lookup E' v = None <-> lookup E v = None /\ ~ In v (vars c);
  r_sol : forall s, solves s E' <-> solves s E /\ csat s c;
  r_vars : forall V, bv V E -> (forall b, bound c = Some b -> tv V b) -> bv V E';
  r_same : forall u v i, cl E u i -> cl E v i -> exists j, cl E' u j /\ cl E' v j
}.
(** new variables for a class *)
Lemma grow : forall d E k c', ok_env E -> plain_env d E -> names_ok d E -> noallow E -> In k E -> id c' = id k -> bound c' = bound k -> allow c' = false -> incl (vars k) (vars c') ->
  (forall v, In v (vars c') -> In v (vars k) \/ (lookup E v = None /\ forall x b, In x E -> bound x = Some b -> ~ In v (tvars b))) -> merged d E (put E c') c'.
Proof.
  intros d E k c' O PE NE AE Ik Hi Hb Ha Sub New. set (E' := put E c').
  assert (IN : forall x, In x E' <-> x = c' \/ In x E /\ id x <> id k) by (intros x; unfold E'; rewrite (@in_put E c' k x Ik) by auto; rewrite Hi; tauto).
  assert (Old : forall x, In x E -> In x E' \/ x = k). { intros x J. destruct (Nat.eq_dec (id x) (id k)) as [Q|Q]; [right; eapply ids_inj; eauto; apply O|left; apply IN; auto]. }
  assert (Bd : forall x b, In x E' -> bound x = Some b -> exists y, In y E /\ id y = id x /\ bound y = Some b).
  { intros x b J B. apply IN in J as [->|[J D]]; [exists k; rewrite <- Hb; auto|exists x; auto]. }
  assert (CE : forall v j, cl E v j -> cl E' v j).
  { intros v j (x & J & M & Q). destruct (Old x J) as [J'| ->]; [exists x; auto|]. exists c'. split; [apply IN; auto|]. split; [auto|congruence]. }
  assert (CN : forall v j, cl E' v j -> cl E v j \/ (lookup E v = None /\ forall x b, In x E -> bound x = Some b -> ~ In v (tvars b))).
  { intros v j (x & J & M & Q). apply IN in J as [->|[J D]]; [|left; exists x; auto]. destruct (New v M) as [M'|N]; [left; exists k; split; auto; split; auto; congruence|right; auto]. }
  assert (ED : forall i j, edge E' i j -> edge E i j).
  { intros i j (x & b & v & J & Q & B & Vb & K). destruct (Bd x b J B) as (y & Iy & Qy & By). destruct (CN v j K) as [K'|[_ N]]; [|destruct (N y b Iy By Vb)].
    exists y, b, v. repeat split; auto. congruence. }
  assert (DM : forall v, lookup E' v = None <-> lookup E v = None /\ ~ In v (vars c')).
  { intros v. rewrite !lookup_none. split.
    - intros H. split; [|apply (H c'); apply IN; auto]. intros x J M. destruct (Old x J) as [J'| ->]; [exact (H x J' M)|]. apply (H c'); [apply IN; auto|auto].
    - intros [H1 H2] x J. apply IN in J as [->|[J _]]; auto. }
  split.
  - split.
    + unfold E'. rewrite ids_put. apply O.
    + intros x y v J J' M M'. apply IN in J as [->|[J D]], J' as [->|[J' D']]; auto; [destruct (New v M) as [M1|[N _]]|destruct (New v M') as [M1|[N _]]|exact (e_one O x y v J J' M M')].
      * exfalso. apply D'. f_equal. exact (e_one O y k v J' Ik M' M1).
      * destruct (proj1 (lookup_none _ _) N y J' M').
      * exfalso. apply D. f_equal. exact (e_one O x k v J Ik M M1).
      * destruct (proj1 (lookup_none _ _) N x J M).
    + intros i. induction (e_acy O i) as [i _ IH]. constructor. intros j K. apply IH, ED, K.
  - intros x b J B. destruct (Bd x b J B) as (y & Iy & Qy & By). destruct (PE y b Iy By) as (P1 & P2 & P3). split; auto. split; auto. destruct b; auto. cbn [opened] in *.
    destruct (lookup E v) as [z|] eqn:L; [discriminate|]. replace (lookup E' v) with (@None cls); auto. symmetry. apply DM. split; auto. intros M. destruct (New v M) as [M'|[_ N]].
    + exact (proj1 (lookup_none _ _) L k Ik M').
    + apply (N y (TVar q v) Iy By). left; reflexivity.
  - intros v w L1 L2. apply NE; [apply (DM v); auto|apply (DM w); auto].
  - intros x J. apply IN in J as [->|[J _]]; auto.
  - exact DM.
  - intros s. split.
    + intros [U H]. assert (Cc : csat s c') by (apply H; apply IN; auto). split; [|exact Cc]. split; auto. intros x J. destruct (Old x J) as [J'| ->]; [apply H; auto|].
      destruct Cc as [H1 H2]. rewrite Hb in H2. split; [intros; apply H1; auto|intros; apply H2; auto].
    + intros [[U H] Cc]. split; auto. intros x J. apply IN in J as [->|[J _]]; [exact Cc|apply H; auto].
  - intros V B1 _ x b J B. destruct (Bd x b J B) as (y & Iy & Qy & By). exact (B1 y b Iy By).
  - intros u v i K1 K2. exists i. auto.
Qed.
(** a new class *)
Lemma list_max_in : forall l x, In x l -> x <= list_max l.
Proof. intros l x I. pose proof (proj1 (list_max_le l (list_max l)) (le_n _)) as F. rewrite Forall_forall in F. auto. Qed.
Lemma append : forall d E c, ok_env E -> plain_env d E -> names_ok d E -> noallow E -> allow c = false -> (forall v, In v (vars c) -> lookup E v = None) ->
  (forall x b v, In x E -> bound x = Some b -> In v (vars c) -> ~ In v (tvars b)) ->
  (forall b, bound c = Some b -> plain d b /\ qof b = noq /\ opened E b = None /\ forall v, In v (vars c) -> ~ In v (tvars b)) ->
  merged d E (E ++ [C (fresh E) (vars c) (bound c) (allow c)]) c.
Proof.
  intros d E c O PE NE AE Ac New Un Bc. set (c' := C (fresh E) _ _ _). set (E' := E ++ [c']).
  assert (IN : forall x, In x E' <-> In x E \/ x = c') by (intros x; unfold E'; rewrite in_app_iff; cbn [In]; intuition auto).
  assert (FR : forall x, In x E -> id x <> fresh E). { intros x J Q. unfold fresh in Q. pose proof (list_max_in _ _ (in_map id _ _ J)). lia. }
  assert (CE : forall v j, cl E' v j <-> cl E v j \/ (In v (vars c) /\ j = fresh E)).
  { intros v j. split.
    - intros (x & J & M & Q). apply IN in J as [J| ->]; [left; exists x; auto|right; auto].
    - intros [(x & J & M & Q)|[M ->]]; [exists x|exists c']; (split; [apply IN; auto|auto]). }
  assert (BD : forall x b v, In x E' -> bound x = Some b -> In v (tvars b) -> ~ In v (vars c)).
  { intros x b v J B Vb M. apply IN in J as [J| ->]; [exact (Un x b v J B M Vb)|]. destruct (Bc b B) as (_ & _ & _ & N). exact (N v M Vb). }
  assert (DM : forall v, lookup E' v = None <-> lookup E v = None /\ ~ In v (vars c)).
  { intros v. rewrite !lookup_none. split.
    - intros H. split; [intros x J; apply H; apply IN; auto|apply (H c'); apply IN; auto].
    - intros [H1 H2] x J. apply IN in J as [J| ->]; auto. }
  assert (OP : forall x b, In x E' -> bound x = Some b -> opened E b = None -> opened E' b = None).
  { intros x b J B Ob. destruct b; auto. cbn [opened] in *. destruct (lookup E v) eqn:L; [discriminate|]. replace (lookup E' v) with (@None cls); auto. symmetry. apply DM. split; auto.
    apply (BD x _ v J B). left; reflexivity. }
  assert (AO : forall i, i <> fresh E -> Acc (fun j i => edge E' i j) i).
  { intros i. induction (e_acy O i) as [i _ IH]. intros D. constructor. intros j (x & b & v & J & Q & B & Vb & K). assert (Nv := BD x b v J B Vb).
    apply IN in J as [J| ->]; [|subst; cbn [id c'] in D; congruence]. apply CE in K as [K|[K _]]; [|tauto]. apply IH; [exists x, b, v; auto|]. destruct K as (y & Iy & _ & <-). auto. }
  split.
  - split.
    + unfold E'. rewrite map_app. cbn [map id c']. assert (NoDup (fresh E :: map id E)).
      { constructor; [|apply O]. intros J. apply in_map_iff in J as (x & Q & J). exact (FR x J Q). }
      exact (Permutation_NoDup (Permutation_cons_append (map id E) (fresh E)) H).
    + intros x y v J J' M M'. apply IN in J as [J| ->], J' as [J'| ->]; auto; [exact (e_one O x y v J J' M M')| |]; exfalso.
      * exact (proj1 (lookup_none _ _) (New v M') x J M).
      * exact (proj1 (lookup_none _ _) (New v M) y J' M').
    + intros i. destruct (Nat.eq_dec i (fresh E)) as [->|D]; auto. constructor. intros j (x & b & v & J & Q & B & Vb & K). assert (Nv := BD x b v J B Vb). apply AO. apply CE in K as [(y & Iy & _ & <-)|[K _]]; [auto|tauto].
  - intros x b J B. assert (P : plain d b /\ qof b = noq /\ opened E b = None) by (pose proof J as J1; apply IN in J1 as [J1| ->]; [exact (PE x b J1 B)|destruct (Bc b B) as (P1 & P2 & P3 & _); auto]).
    destruct P as (P1 & P2 & P3). split; auto. split; auto. exact (OP x b J B P3).
  - intros v w L1 L2. apply NE; [apply (DM v); auto|apply (DM w); auto].
  - intros x J. apply IN in J as [J| ->]; auto.
  - exact DM.
  - intros s. split.
    + intros [U H]. split; [split; auto; intros x J; apply H, IN; auto|]. apply (H c'), IN; auto.
    + intros [[U H] Cc]. split; auto. intros x J. apply IN in J as [J| ->]; [apply H; auto|exact Cc].
  - intros V B1 B2 x b J B. apply IN in J as [J| ->]; [exact (B1 x b J B)|exact (B2 b B)].
  - intros u v i K1 K2. exists i. split; apply CE; auto.
Qed.
(** after the bindings have been merged *)
Record mid (d : decls) (E E1 : env) (c k1 : cls) (v0 : nat) : Prop := {
  d_ok : ok_env E1;
  d_plain : plain_env d E1;
  d_names : names_ok d E1;
  d_allow : noallow E1;
  d_in : In k1 E1;
  d_v0 : In v0 (vars k1);
  d_dom : forall v, lookup E v = None <-> lookup E1 v = None;
  d_sol : forall s, solves s E1 <-> solves s E /\ forall b, bound c = Some b -> s v0 = setq noq (val s b);
  d_vars : forall V, bv V E -> (forall b, bound c = Some b -> tv V b) -> bv V E1;
  d_same : forall u v i, cl E u i -> cl E v i -> exists j, cl E1 u j /\ cl E1 v j
}.
Section One.
Variables (d : decls) (E : env) (c k : cls) (v0 : nat).
Hypotheses (O : ok_env E) (PE : plain_env d E) (NE : names_ok d E) (AE : noallow E) (Ac : allow c = false)
  (One : forall u v, In u (vars c) -> In v (vars c) -> lookup E u <> None -> lookup E v <> None -> lookup E u = lookup E v)
  (Un : forall x b v, In x E -> bound x = Some b -> In v (vars c) -> In v (tvars b) -> lookup E v <> None)
  (Bc : forall b, bound c = Some b -> plain d b /\ qof b = noq /\ opened E b = None /\ forall v, In v (vars c) -> In v (tvars b) -> lookup E v <> None)
  (Mc : In v0 (vars c)) (Lk : lookup E v0 = Some k).
Lemma mid_un : forall E1 k1 v, mid d E E1 c k1 v0 -> In v (vars c) -> lookup E1 v = None -> forall x b, In x E1 -> bound x = Some b -> ~ In v (tvars b).
Proof.
  intros E1 k1 v M I L x b J B H. set (V := fun w => In w (vars c) -> lookup E w <> None).
  assert (A : bv V E1). { apply (d_vars _ _ _ _ _ _ M). intros y b' Iy By w Iw Iw'. exact (Un y b' w Iy By Iw' Iw). intros b' B' w Iw Iw'. destruct (Bc b' B') as (_ & _ & _ & N). exact (N w Iw' Iw). }
  apply (A x b J B v H I). apply (d_dom _ _ _ _ _ _ M). exact L.
Qed.
Lemma mid_one : forall E1 k1 u c0, mid d E E1 c k1 v0 -> In u (vars c) -> lookup E1 u = Some c0 -> c0 = k1.
Proof.
  intros E1 k1 u c0 M I L. assert (N : lookup E u <> None) by (intros K; apply (d_dom _ _ _ _ _ _ M) in K; congruence).
  assert (Q : lookup E u = Some k) by (rewrite (One u v0); auto; congruence).
  apply lookup_some in Q as [Ik Mu]. apply lookup_some in Lk as [_ Mv].
  destruct (d_same _ _ _ _ _ _ M u v0 (id k)) as (j & (x & Ix & Mx & Qx) & (y & Iy & My & Qy)); [exists k; auto..|]. pose proof (d_ok _ _ _ _ _ _ M) as O1.
  assert (x = y) by (eapply ids_inj; [exact (e_ids O1)| | |]; auto; congruence). subst y.
  apply lookup_some in L as [I0 M0]. rewrite (e_one O1 c0 x u I0 Ix M0 Mx). exact (e_one O1 x k1 v0 Iy (d_in _ _ _ _ _ _ M) My (d_v0 _ _ _ _ _ _ M)).
Qed.
Lemma mid_grow : forall E1 k1 vs, mid d E E1 c k1 v0 -> incl vs (vars c) -> merged d E1 (put E1 (grown k1 vs)) (grown k1 vs).
Proof.
  intros E1 k1 vs M S. pose proof M as [M1 M2 M3 M4 M5 M6 M7 M8 M9 M0].
  apply grow with (k := k1); auto; [exact (M4 k1 M5)|intros v I; apply add_vars_In; auto|]. intros v I. apply add_vars_In in I as [I|I]; [left; auto|].
  destruct (lookup E1 v) as [c0|] eqn:L.
  - left. assert (c0 = k1) by (apply (mid_one E1 k1 v c0); auto). subst c0. apply lookup_some in L as [_ L]. exact L.
  - right. split; [auto|]. apply (mid_un E1 k1 v M); auto.
Qed.
Lemma mid_end : forall E1 k1 vs, mid d E E1 c k1 v0 -> incl vs (vars c) -> incl (vars c) (v0 :: vs) -> merged d E (put E1 (grown k1 vs)) c.
Proof.
  intros E1 k1 vs M S1 S2. pose proof (mid_grow _ _ vs M S1) as G. destruct G as [G1 G2 G3 G4 G5 G6 G7 G8].
  assert (VV : forall v, In v (vars (grown k1 vs)) <-> In v (vars k1) \/ In v vs) by (intros; apply add_vars_In).
  assert (VC : forall v, In v (vars c) -> In v (vars (grown k1 vs))) by (intros v I; apply VV; destruct (S2 v I) as [<-|I']; auto; left; apply M).
  split; auto.
  - intros v. rewrite (G5 v), <- (d_dom _ _ _ _ _ _ M v), VV. split; [intros [A B]; split; auto; intros I; apply B, VV, VC, I|].
    intros [A B]. split; auto. intros [I|I]; [|auto]. apply (d_dom _ _ _ _ _ _ M) in A. exact (proj1 (lookup_none _ _) A k1 (d_in _ _ _ _ _ _ M) I).
  - intros s. rewrite (G6 s). split.
    + intros [S E2]. apply (d_sol _ _ _ _ _ _ M) in S as [S B]. split; auto. split; [intros u v I J; apply E2; auto|]. intros b v Hb I. rewrite <- (B b Hb). apply E2; auto.
    + intros [S Cc]. assert (S' : solves s E1). { apply (d_sol _ _ _ _ _ _ M). split; auto. intros b Hb. apply Cc; auto. }
      split; auto. destruct S' as [U S']. destruct (S' k1 (d_in _ _ _ _ _ _ M)) as [K1 K2]. pose proof (d_v0 _ _ _ _ _ _ M) as D0.
      assert (Z0 : forall v, In v (vars (grown k1 vs)) -> s v = s v0). { intros v I. apply VV in I as [I|I]; [apply K1; auto|apply Cc; auto]. }
      split; [intros u v I J; rewrite (Z0 u I), (Z0 v J); auto|]. intros b v Hb I. rewrite (Z0 v I). apply K2; auto.
  - intros V B1 B2. apply G7; [apply (d_vars _ _ _ _ _ _ M); auto|]. intros b Hb. exact (d_vars _ _ _ _ _ _ M V B1 B2 k1 b (d_in _ _ _ _ _ _ M) Hb).
  - intros u v i K1 K2. destruct (d_same _ _ _ _ _ _ M u v i K1 K2) as (j & J1 & J2). exact (G8 u v j J1 J2).
Qed.
Lemma mid_sem : forall E1 e, sem d all E E1 e -> (forall s, solves s E1 -> e s) -> (forall s, solves s E -> (e s <-> forall b, bound c = Some b -> s v0 = setq noq (val s b))) ->
  (forall V, bv V E -> (forall b, bound c = Some b -> tv V b) -> bv V E1) -> forall k1, In k1 E1 -> In v0 (vars k1) -> mid d E E1 c k1 v0.
Proof.
  intros E1 e S T Q VV k1 I1 I2. split; auto.
  - exact (s_inv (m_step S)).
  - exact (m_plain S).
  - exact (names_step (m_step S) NE).
  - exact (m_allow S AE).
  - intros v. exact (step_none v (m_step S)).
  - intros s. split.
    + intros H. assert (HE : solves s E) by (apply sx_all, (m_back S), sx_all, H). split; auto. apply Q; auto.
    + intros [HE B]. apply sx_all, (m_fwd S); [apply sx_all, HE|]. apply Q; auto.
  - exact (s_same (m_step S)).
Qed.
(** what follows merging the bindings *)
Definition rest (f : nat) (bef aft : list nat) (E : env) : res bool :=
  match get E (id k) with
  | None => Dangling
  | Some k => bind (match bound k with Some _ => emplace d f (id k) (vars c) E | None => Ret (put E (C (id k) (add_vars (vars k) bef) None (allow k))) true end)
                   (fun E (ok : bool) => if ok then later d f (id k) aft E else Ret E false)
  end.
Lemma mid_rest : forall f bef aft E1 k1 E', mid d E E1 c k1 v0 -> id k1 = id k -> vars c = bef ++ v0 :: aft -> rest f bef aft E1 = Ret E' true -> merged d E E' c.
Proof.
  intros f bef aft E1 k1 E' M Q VC H. pose proof (d_ok _ _ _ _ _ _ M) as O1. pose proof (d_in _ _ _ _ _ _ M) as I1. unfold rest in H. rewrite <- Q, (@get_in E1 k1 (e_ids O1) I1) in H.
  assert (L : forall vs, incl vs (vars c) -> forall E', later d f (id k1) aft (put E1 (grown k1 vs)) = Ret E' true -> E' = put E1 (grown k1 (vs ++ aft))).
  { intros vs S E2 K. pose proof (mid_grow _ _ vs M S) as G. change (id k1) with (id (grown k1 vs)) in K.
    apply later_ret in K; [rewrite K, grown_app, put_put by reflexivity; reflexivity|apply ok_okw, G|apply (@in_put E1 (grown k1 vs) k1 _ I1); auto|].
    intros u c0 Iu Lu. assert (Ku := Lu). apply lookup_some in Ku as [I0 M0]. apply (@in_put E1 (grown k1 vs) k1 _ I1) in I0 as [I0|[I0 D]]; auto. exfalso. apply D.
    rewrite (mid_one E1 k1 u c0 M); auto; [rewrite VC; apply in_or_app; right; right; auto|]. exact (@lookup_in E1 c0 u O1 I0 M0). }
  destruct (bound k1) as [b1|] eqn:B1.
  - destruct (emplace d f (id k1) (vars c) E1) as [| | |E2 ok] eqn:EM; try discriminate H. cbn [bind] in H. destruct ok; [|discriminate H].
    destruct (emplace_ret _ _ _ _ _ _ (e_ids O1) I1 EM) as [-> _]. apply L in H; [|intros v I; auto]. subst E'. apply mid_end; auto.
    + intros v I. apply in_app_or in I as [I|I]; auto. rewrite VC. apply in_or_app; right; right; auto.
    + intros v I. right. apply in_or_app; auto.
  - cbn [bind] in H. assert (A : allow k1 = false) by (apply (d_allow _ _ _ _ _ _ M); auto). replace (C (id k1) (add_vars (vars k1) bef) None (allow k1)) with (grown k1 bef) in H by (unfold grown; rewrite B1; reflexivity).
    apply L in H; [|intros v I; rewrite VC; apply in_or_app; auto]. subst E'. apply mid_end; auto.
    + intros v I. rewrite VC. apply in_app_or in I as [I|I]; apply in_or_app; auto. right; right; auto.
    + intros v I. rewrite VC in I. apply in_app_or in I as [I|[<-|I]]; [right; apply in_or_app; auto|left; auto|right; apply in_or_app; auto].
Qed.
Lemma put_k : put E (C (id k) (vars k) (bound k) (allow k && allow c)) = E.
Proof.
  apply lookup_some in Lk as [Ik _]. replace (C (id k) (vars k) (bound k) (allow k && allow c)) with k; [apply put_same; auto; apply O|]. rewrite Ac, andb_false_r, <- (AE k Ik). destruct k; reflexivity.
Qed.
Lemma same_mid : bound c = None -> mid d E E c k v0.
Proof.
  intros B. apply lookup_some in Lk as [Ik Mk]. apply mid_sem with (e := fun _ => True); auto.
  - apply sem_refl; auto.
  - intros s _. split; auto. intros _ b H. congruence.
Qed.
Lemma both_mid : forall f b1 b2 E1 t, bound k = Some b1 -> bound c = Some b2 -> inexact d f nowiden b1 b2 E = Ret E1 (Some t) -> setq noq t = b1 /\ In k E1 /\ mid d E E1 c k v0.
Proof.
  intros f b1 b2 E1 t B1 B2 H. pose proof Lk as Lk'. apply lookup_some in Lk' as [Ik Mk].
  destruct (PE k b1 Ik B1) as (P1 & Q1 & Op1). destruct (Bc b2 B2) as (P2 & Q2 & Op2 & _).
  assert (CX : ctx d all E) by (split; auto; intros i j _ _; exact I).
  assert (PA : forall l, pre all E l) by (intros l v _; destruct (lookup_dec E v) as [[i K]|N]; [left; exists i; split; [exact K|exact I]|right; exact N]).
  pose proof (@g_inexact d f (semf_all d f) b1 b2 E all CX (PA _) (PA _) P1 P2 (eq_trans Q1 (eq_sym Q2))) as G. rewrite H in G. destruct G as (SA & TA & ->).
  assert (EV : forall s, solves s E -> (eqv b1 b2 s <-> s v0 = setq noq (val s b2))).
  { intros s [U S]. destruct (S k Ik) as [_ S2]. rewrite (S2 b1 v0 B1 Mk). unfold eqv. split; [intros ->; auto|]. intros K. apply setq_inj in K; auto. rewrite !qof_val. congruence. }
  assert (NR : ~ reach E (tvars b2) (id k)).
  { intros R. destruct (solution (s_inv (m_step SA))) as (s & Hs & _). assert (Hs' : sx all s E) by (apply (m_back SA), sx_all, Hs).
    pose proof (@reach_size d all s E b2 k v0 O (x_cl CX) PE Hs' (PA _) Op2 Ik Mk R) as Z0. assert (HE : eqv b1 b2 s) by (apply TA, sx_all, Hs).
    apply EV in HE; [|apply sx_all, Hs']. rewrite HE, size_setq in Z0. lia. }
  set (Y := reach E (tvars b1 ++ tvars b2)). assert (NY : ~ Y (id k)) by (intros R; apply reach_app in R as [R|R]; [exact (@acyc_not E k b1 O Ik B1 R)|exact (NR R)]).
  assert (PY : pre Y E (tvars b1 ++ tvars b2)) by apply reach_pre. apply pre_app in PY as [PY1 PY2].
  assert (CY : ctx d Y E) by (eapply ctx_sub; [exact CX|apply reach_closed]).
  pose proof (@g_inexact d f (semf_all d f) b1 b2 E Y CY PY1 PY2 P1 P2 (eq_trans Q1 (eq_sym Q2))) as G. rewrite H in G. destruct G as (SY & _ & _).
  assert (Ik1 : In k E1) by (apply (s_out (m_step SY)); auto). split; [apply setq_same; auto|]. split; [exact Ik1|].
  apply mid_sem with (e := eqv b1 b2); auto.
  - intros s Hs. apply TA, sx_all, Hs.
  - intros s Hs. rewrite (EV s Hs). rewrite B2. split; [intros K b [= <-]; exact K|intros K; apply K; reflexivity].
  - intros V V1 V2. pose proof (@v_inexact d V f (vf_all d V f) nowiden b1 b2 E V1 (V1 k b1 Ik B1) (V2 b2 B2)) as G. rewrite H in G. apply G.
Qed.
Lemma bind_mid : forall f bef aft b2 E', bound k = None -> bound c = Some b2 -> vars c = bef ++ v0 :: aft -> (forall u, In u bef -> lookup E u = None) ->
  let k1 := C (id k) (vars k) (Some b2) false in rest f bef aft (put E k1) = Ret E' true -> mid d E (put E k1) c k1 v0.
Proof.
  intros f bef aft b2 E' B1 B2 VC Nb k1 H. pose proof Lk as Lk'. apply lookup_some in Lk' as [Ik Mk]. destruct (Bc b2 B2) as (P2 & Q2 & Op2 & Nb2).
  assert (N1 : NoDup (map id (put E k1))) by (rewrite ids_put; apply O). assert (I1 : In k1 (put E k1)) by (apply (@in_put E k1 k _ Ik); auto).
  unfold rest in H. change (id k) with (id k1) in H. rewrite (@get_in _ k1 N1 I1) in H. cbn [bound k1] in H. destruct (emplace d f (id k1) (vars c) (put E k1)) as [| | |E2 ok] eqn:EM; try discriminate H.
  cbn [bind] in H. destruct ok; [|discriminate H]. destruct (emplace_ret _ _ _ _ _ _ N1 I1 EM) as [_ OC]. specialize (OC b2 bef v0 aft eq_refl VC). rewrite put_put in OC by reflexivity.
  set (g := grown k1 bef) in *. set (F := put E g) in *.
  assert (VG : forall v, In v (vars g) <-> In v (vars k) \/ In v bef) by (intros v; apply add_vars_In).
  assert (IN : forall x, In x F <-> x = g \/ In x E /\ id x <> id k) by (intros x; unfold F; rewrite (@in_put E g k x Ik) by reflexivity; reflexivity).
  assert (OF : okw F).
  { split; [unfold F; rewrite ids_put; apply O|]. intros x y v J J' M M'. apply IN in J as [->|[J D]], J' as [->|[J' D']]; auto; [apply VG in M as [M|M]|apply VG in M' as [M'|M']|exact (e_one O x y v J J' M M')]; exfalso.
    - apply D'. f_equal. exact (e_one O y k v J' Ik M' M).
    - exact (proj1 (lookup_none _ _) (Nb v M) y J' M').
    - apply D. f_equal. exact (e_one O x k v J Ik M M').
    - exact (proj1 (lookup_none _ _) (Nb v M') x J M). }
  assert (IG : In g F) by (apply IN; auto). assert (MG : In v0 (vars g)) by (apply VG; auto).
  unfold occurs in OC. rewrite (@lookup_w F g v0 OF IG MG) in OC. pose proof (@occ_sound_w F g OF IG f b2 OC) as NR.
  assert (CF : forall v j, cl E v j -> cl F v j).
  { intros v j (x & J & M & Q). destruct (Nat.eq_dec (id x) (id k)) as [D|D]; [|exists x; split; auto; apply IN; auto]. pose proof (@ids_inj E x k (e_ids O) J Ik D) as ->. exists g. split; auto. split; [apply VG; auto|exact Q]. }
  assert (EF : forall i j, edge E i j -> edge F i j).
  { intros i j (x & b & v & J & Q & B & Vb & K). exists x, b, v. split; [|split; auto]. apply IN. right. split; auto. intros D. pose proof (@ids_inj E x k (e_ids O) J Ik D) as ->. congruence. }
  assert (NE2 : ~ reach E (tvars b2) (id k)).
  { intros (v & i & Iv & K & R). apply NR. exists v, i. split; auto. split; auto. clear K Iv. change (id g) with (id k). induction R; [constructor|econstructor; eauto]. }
  assert (CX : ctx d all E) by (split; auto; intros i j _ _; exact I).
  assert (ST : step all E (put E k1)).
  { apply put_step with (Y := reach E (tvars b2)) (c := k); auto; [reflexivity|apply reach_closed|intros i _; exact I|exact I|]. intros b [= <-]. apply reach_pre. }
  apply mid_sem with (e := fun s => s v0 = setq noq (val s b2)); auto.
  - apply change_sem with (Y := fun _ => False) (c1 := k) (c2 := k) (c' := k1); auto; try contradiction; try exact I.
    + intros x. rewrite (@in_put E k1 k x Ik) by reflexivity. cbn [id k1]. tauto.
    + intros s U _ [H1 H2]. cbn [vars bound k1] in *. split; (split; [exact H1|intros b0 w0 Hb; rewrite B1 in Hb; discriminate]).
    + intros s U [H1 _] _ He. split; cbn [vars bound k1]; auto. intros b0 w0 [= <-] M0. rewrite (H1 w0 v0 M0 Mk). exact He.
    + intros b0 [= <-]. auto.
  - intros s [U S]. apply (S k1 I1); auto.
  - intros s _. rewrite B2. split; [intros K b [= <-]; exact K|intros K; apply K; reflexivity].
  - intros V V1 V2. apply bv_put; auto. intros b [= <-]. auto.
Qed.
End One.
Lemma merge_one_ok : forall d f E c E', ok_env E -> plain_env d E -> names_ok d E -> noallow E -> allow c = false ->
  (forall u v, In u (vars c) -> In v (vars c) -> lookup E u <> None -> lookup E v <> None -> lookup E u = lookup E v) ->
  (forall x b v, In x E -> bound x = Some b -> In v (vars c) -> In v (tvars b) -> lookup E v <> None) ->
  (forall b, bound c = Some b -> plain d b /\ qof b = noq /\ opened E b = None /\ forall v, In v (vars c) -> In v (tvars b) -> lookup E v <> None) ->
  merge_one d f c E = Ret E' true -> merged d E E' c.
Proof.
  intros d f E c E' O PE NE AE Ac One Un Bc H. unfold merge_one in H. destruct (split_vars E (vars c)) as [[[bef r] aft]|] eqn:SP.
  - apply split_some in SP as (v0 & k & VC & Lk & <- & Nb). assert (Mc : In v0 (vars c)) by (rewrite VC; apply in_or_app; right; left; auto).
    pose proof Lk as Lk'. apply lookup_some in Lk' as [Ik Mk].
    assert (HR : bind (merge_bound d f (id k) c E) (fun E (ok : bool) => if ok then rest d c k f bef aft E else Ret E false) = Ret E' true).
    { rewrite <- H. destruct (merge_bound d f (id k) c E) as [| | |E1 ok]; try reflexivity. cbn [bind]. destruct ok; [|reflexivity]. unfold rest. destruct (get E1 (id k)) as [k1|] eqn:G; [|reflexivity].
      apply get_some in G as [_ <-]. reflexivity. }
    clear H. unfold merge_bound in HR. rewrite (@get_in E k (e_ids O) Ik) in HR. cbv zeta in HR. pose proof (AE k Ik) as Ak.
    destruct (bound c) as [b2|] eqn:B2; [destruct (bound k) as [b1|] eqn:B1|].
    + rewrite Ac, Ak in HR. fold nowiden in HR. destruct (inexact d f nowiden b1 b2 E) as [| | |E1 [t|]] eqn:IX; try discriminate HR. cbn [bind] in HR.
      assert (Bc' : forall b, bound c = Some b -> plain d b /\ qof b = noq /\ opened E b = None /\ forall v, In v (vars c) -> In v (tvars b) -> lookup E v <> None) by (rewrite B2; exact Bc).
      destruct (both_mid d E c k v0 O PE NE AE Bc' Lk f b1 b2 E1 t B1 B2 IX) as (QT & Ik1 & M). rewrite QT in HR. pose proof (e_ids (d_ok _ _ _ _ _ _ M)) as N1. rewrite (@get_in E1 k N1 Ik1) in HR. cbn [bind] in HR. rewrite Ak in HR. cbn [andb] in HR.
      replace (C (id k) (vars k) (Some b1) false) with k in HR by (rewrite <- B1, <- Ak; destruct k; reflexivity). rewrite put_same in HR by auto.
      eapply mid_rest with (k := k) (v0 := v0); eauto.
    + cbn [bind] in HR. rewrite Ak in HR. cbn [andb] in HR.
      assert (Bc' : forall b, bound c = Some b -> plain d b /\ qof b = noq /\ opened E b = None /\ forall v, In v (vars c) -> In v (tvars b) -> lookup E v <> None) by (rewrite B2; exact Bc).
      pose proof (bind_mid d E c k v0 O PE NE AE Bc' Lk f bef aft b2 E' B1 B2 VC Nb HR) as M. eapply mid_rest with (k := k) (v0 := v0); eauto.
    + cbn [bind] in HR. rewrite (put_k E c k v0 O AE Ac Lk) in HR.
      eapply mid_rest with (k := k) (v0 := v0) (k1 := k); eauto; [rewrite B2; discriminate|]. apply same_mid; auto.
  - injection H as <-. pose proof (split_none _ _ SP) as N. apply append; auto.
    + intros x b v I B J K. exact (Un x b v I B J K (N v J)).
    + intros b B. destruct (Bc b B) as (P1 & P2 & P3 & P4). repeat (split; auto). intros v J K. exact (P4 v J K (N v J)).
Qed.
Lemma combine_ok : forall d f o E E', ok_env E -> plain_env d E -> names_ok d E -> okw o -> fit d E o -> combine_ d f o E = Ret E' true ->
  ok_env E' /\ plain_env d E' /\ names_ok d E' /\ noallow E' /\ (forall v, lookup E' v = None <-> lookup E v = None /\ lookup o v = None) /\ forall s, solves s E' <-> solves s E /\ solves s o.
Proof.
  induction o as [|c o IH]; intros E E' O PE NE OO F H; cbn [combine_] in H.
  - injection H as <-. split; [exact O|]. split; [exact PE|]. split; [exact NE|]. split; [intros c I; apply (h_allow F); auto|]. split.
    + intros v. split; [intros L; split; auto|intros [L _]; exact L].
    + intros s. split; [intros S1; split; auto; split; [apply S1|intros c []]|intros [A _]; exact A].
  - destruct (merge_one d f c E) as [| | |E1 ok] eqn:M1; try discriminate H. cbn [bind] in H. destruct ok; [|discriminate H].
    assert (AE : noallow E) by (intros x I; apply (h_allow F); auto).
    assert (M : merged d E E1 c).
    { apply merge_one_ok with (f := f); auto.
      - apply (h_allow F). right; left; auto.
      - intros u v I J. apply (h_one F c); auto. left; auto.
      - intros x b v I B J K. apply (h_old F x b c v); auto. left; auto.
      - intros b B. destruct (h_plain F c b (or_introl eq_refl) B) as (P1 & P2 & P3 & _). repeat (split; auto). intros v J K. apply (h_order F [] c o b c v); auto. left; auto. }
    assert (DJ : forall c' v, In c' o -> In v (vars c') -> ~ In v (vars c)).
    { intros c' v I J K. pose proof (w_one _ OO c c' v (or_introl eq_refl) (or_intror I) K J) as <-. pose proof (w_ids _ OO) as N. inversion N; subst. apply H2. apply in_map; auto. }
    assert (OO' : okw o). { split; [pose proof (w_ids _ OO) as N; inversion N; auto|]. intros x y v I J. apply (w_one _ OO x y v); right; auto. }
    assert (UP : forall v, lookup E v <> None -> lookup E1 v <> None) by (intros v A B; apply A, (r_dom _ _ _ _ M v), B).
    assert (DN : forall c' v, In c' o -> In v (vars c') -> lookup E1 v <> None -> lookup E v <> None).
    { intros c' v I J A B. apply A. apply (r_dom _ _ _ _ M). split; auto. exact (DJ c' v I J). }
    assert (LO : forall v, lookup (c :: o) v = None <-> ~ In v (vars c) /\ lookup o v = None).
    { intros v. rewrite !lookup_none. split; [intros A; split; [apply A; left; auto|intros x I; apply A; right; auto]|]. intros [A B] x [<-|I]; auto. }
    assert (F' : fit d E1 o).
    { split.
      - intros c' b I B. destruct (h_plain F c' b (or_intror I) B) as (P1 & P2 & P3 & P4). repeat (split; auto).
        + destruct b; auto. cbn [opened] in *. destruct (lookup E v) eqn:L1; [discriminate|]. destruct (lookup (c :: o) v) eqn:L2; [discriminate|]. apply LO in L2 as [L2 _].
          replace (lookup E1 v) with (@None cls); auto. symmetry. apply (r_dom _ _ _ _ M). auto.
        + destruct b; auto. cbn [opened] in *. destruct (lookup (c :: o) v) eqn:L2; [discriminate|]. apply LO in L2 as [_ ->]. reflexivity.
      - intros c' u v I Iu Iv A B. pose proof (DN c' u I Iu A) as A'. pose proof (DN c' v I Iv B) as B'. pose proof (h_one F c' u v (or_intror I) Iu Iv A' B') as Q.
        destruct (lookup E u) as [k|] eqn:L1; [|congruence]. symmetry in Q. apply lookup_some in L1 as [Ik Mu], Q as [_ Mv].
        destruct (r_same _ _ _ _ M u v (id k)) as (j & (x & Ix & Mx & Qx) & (y & Iy & My & Qy)); [exists k; auto..|]. pose proof (r_ok _ _ _ _ M) as O1.
        assert (x = y) by (eapply ids_inj; [exact (e_ids O1)| | |]; auto; congruence). subst y. rewrite (@lookup_in E1 x u O1 Ix Mx), (@lookup_in E1 x v O1 Ix My). reflexivity.
      - intros x b c' v I B Ic Iv Ib. apply UP. set (V := fun w => forall c', In c' o -> In w (vars c') -> lookup E w <> None).
        assert (A : bv V E1).
        { apply (r_vars _ _ _ _ M).
          - intros y b' Iy By w Iw c2 I2 J2. exact (h_old F y b' c2 w Iy By (or_intror I2) J2 Iw).
          - intros b' B' w Iw c2 I2 J2. apply (h_order F [] c o b' c2 w); auto. right; auto. }
        exact (A x b I B v Ib c' Ic Iv).
      - intros o1 c1 o2 b c' v -> B I Iv Ib. apply UP. apply (h_order F (c :: o1) c1 o2 b c' v); auto.
      - intros x [I|I]; [apply (r_allow _ _ _ _ M); auto|apply (h_allow F); right; right; auto]. }
    destruct (IH E1 E' (r_ok _ _ _ _ M) (r_plain _ _ _ _ M) (r_names _ _ _ _ M) OO' F' H) as (A1 & A2 & A3 & A4 & A5 & A6).
    split; [exact A1|]. split; [exact A2|]. split; [exact A3|]. split; [exact A4|]. split.
    + intros v. rewrite (A5 v), (r_dom _ _ _ _ M v), (LO v). tauto.
    + intros s. rewrite (A6 s), (r_sol _ _ _ _ M s). split.
      * intros [[B1 B2] B3]. split; auto. split; [apply B1|]. intros x [<-|I]; [exact B2|apply B3; auto].
      * intros [B1 [B2 B3]]. split; [split; auto; apply (B3 c); left; auto|]. split; auto. intros x I. apply B3. right; auto.
Qed.
