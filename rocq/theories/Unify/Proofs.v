From Coq Require Import List Bool Arith Lia Relations Transitive_Closure.
From Verif Require Import Unify.Model Unify.Spec.
Import ListNotations.
Set Implicit Arguments.

(** * Lists of classes *)
Lemma mem_In : forall v l, mem v l = true <-> In v l.
Proof. intros; unfold mem; rewrite existsb_exists; split. intros (x & I & H). apply Nat.eqb_eq in H; subst; auto. intros I; exists v; split; auto. apply Nat.eqb_refl. Qed.
Lemma mem_nIn : forall v l, mem v l = false <-> ~ In v l.
Proof. intros; rewrite <- mem_In; destruct (mem v l); split; congruence. Qed.
Lemma add_var_In : forall l v u, In u (add_var l v) <-> In u l \/ u = v.
Proof.
  intros; unfold add_var; destruct (mem v l) eqn:M. apply mem_In in M. split; [tauto|intros [I| ->]; auto].
  rewrite in_app_iff; cbn [In]. split; intuition.
Qed.
Lemma add_vars_In : forall m l u, In u (add_vars l m) <-> In u l \/ In u m.
Proof. induction m as [|v m IH]; intros l u; cbn [add_vars fold_left In]. tauto. change (fold_left add_var m (add_var l v)) with (add_vars (add_var l v) m). rewrite IH, add_var_In. intuition. Qed.
Lemma lookup_some : forall E v c, lookup E v = Some c -> In c E /\ In v (vars c).
Proof. intros E v c H. apply find_some in H as [I M]. split; auto. now apply mem_In. Qed.
Lemma lookup_none : forall E v, lookup E v = None <-> forall c, In c E -> ~ In v (vars c).
Proof.
  intros E v; split. intros H c I M. pose proof (find_none _ _ H c I) as N. cbv beta in N. apply mem_In in M; congruence.
  intros H. unfold lookup. destruct (find _ E) as [c|] eqn:F; auto. apply find_some in F as [I M]. apply mem_In in M. exfalso; eapply H; eauto.
Qed.
Lemma lookup_dec : forall E v, (exists i, cl E v i) \/ (forall i, ~ cl E v i).
Proof.
  intros E v; destruct (lookup E v) as [c|] eqn:L. left. apply lookup_some in L as [I M]. exists (id c), c; auto.
  right. intros i (c & I & M & _). eapply lookup_none in L; eauto.
Qed.
Lemma ids_inj : forall E c c', NoDup (map id E) -> In c E -> In c' E -> id c = id c' -> c = c'.
Proof.
  induction E as [|x E IH]; intros c c' N I I' H. inversion I.
  inversion N as [|? ? N1 N2]; subst. destruct I as [->|I], I' as [->|I']; auto.
  - exfalso; apply N1. rewrite H. now apply in_map.
  - exfalso; apply N1. rewrite <- H. now apply in_map.
Qed.
Lemma get_some : forall E i c, get E i = Some c -> In c E /\ id c = i.
Proof. intros E i c H. apply find_some in H as [I M]. split; auto. now apply Nat.eqb_eq. Qed.
Lemma get_in : forall E c, NoDup (map id E) -> In c E -> get E (id c) = Some c.
Proof.
  intros E c N I. destruct (get E (id c)) as [c'|] eqn:G. apply get_some in G as [I' H]. f_equal; eapply ids_inj; eauto.
  exfalso. pose proof (find_none _ _ G c I) as F. cbv beta in F. rewrite Nat.eqb_refl in F; discriminate.
Qed.
Lemma ids_put : forall E c, map id (put E c) = map id E.
Proof. intros; unfold put; rewrite map_map; apply map_ext_in. intros x _. destruct (Nat.eqb_spec (id x) (id c)); auto. Qed.
Lemma in_put : forall E c c0 x, In c0 E -> id c0 = id c -> (In x (put E c) <-> x = c \/ (In x E /\ id x <> id c)).
Proof.
  intros E c c0 x I0 H. unfold put; rewrite in_map_iff; split.
  - intros (y & Y & I). destruct (Nat.eqb_spec (id y) (id c)); subst; auto.
  - intros [->|[I N]]. exists c0. rewrite H, Nat.eqb_refl; auto. exists x; split; auto. destruct (Nat.eqb_spec (id x) (id c)); congruence.
Qed.
Lemma in_erase : forall E i x, In x (erase E i) <-> In x E /\ id x <> i.
Proof. intros; unfold erase; rewrite filter_In, negb_true_iff, Nat.eqb_neq; tauto. Qed.
Lemma nodup_erase : forall E i, NoDup (map id E) -> NoDup (map id (erase E i)).
Proof.
  induction E as [|x E IH]; intros i N; cbn [erase filter map]. constructor.
  inversion N as [|? ? N1 N2]; subst. unfold erase in IH. destruct (negb (id x =? i)); auto. cbn [map]; constructor; auto.
  intros I; apply N1. apply in_map_iff in I as (y & <- & I). apply filter_In in I as [I _]. now apply in_map.
Qed.
Lemma lookup_in : forall E c v, ok_env E -> In c E -> In v (vars c) -> lookup E v = Some c.
Proof.
  intros E c v O I M. destruct (lookup E v) as [c'|] eqn:L. apply lookup_some in L as [I' M']. f_equal; eapply (e_one O); eauto.
  exfalso; eapply lookup_none in L; eauto.
Qed.
Lemma cl_uniq : forall E v i j, ok_env E -> cl E v i -> cl E v j -> i = j.
Proof. intros E v i j O (c & I & M & <-) (c' & I' & M' & <-). f_equal; eapply (e_one O); eauto. Qed.

(** * Changing an environment inside a set of classes *)
Definition closed (X : nat -> Prop) (E : env) : Prop := forall i j, X i -> edge E i j -> X j.
Definition pre (X : nat -> Prop) (E : env) (l : list nat) : Prop := forall v, In v l -> (exists i, cl E v i /\ X i) \/ (forall i, ~ cl E v i).
Record step (X : nat -> Prop) (E E' : env) : Prop := {
  s_inv : ok_env E';
  s_out : forall c, ~ X (id c) -> (In c E <-> In c E');
  s_fwd : forall v i, cl E v i -> cl E' v i \/ (X i /\ exists j, cl E' v j /\ X j);
  s_bwd : forall v j, cl E' v j -> exists i, cl E v i;
  s_keep : forall c, In c E -> In c E' \/ X (id c);
  s_back : forall c, In c E' -> In c E \/ X (id c);
  s_edge : forall i j, edge E' i j -> (X i /\ X j) \/ exists j0, edge E i j0 /\ (j = j0 \/ (X j0 /\ X j));
  s_same : forall u v i, cl E u i -> cl E v i -> exists j, cl E' u j /\ cl E' v j
}.
Lemma step_refl : forall X E, ok_env E -> step X E E.
Proof. intros X E O; split; auto; [tauto|eauto..]. Qed.
Lemma step_mono : forall (X Y : nat -> Prop) E E', (forall i, X i -> Y i) -> step X E E' -> step Y E E'.
Proof.
  intros X Y E E' S P; split. exact (s_inv P).
  - intros c N. apply (s_out P). auto.
  - intros v i H. destruct (s_fwd P H) as [?|(A & j & B & C)]; auto. right; split; auto; exists j; auto.
  - exact (s_bwd P).
  - intros c H. destruct (s_keep P c H); auto.
  - intros c H. destruct (s_back P c H); auto.
  - intros i j H. destruct (s_edge P H) as [[A B]|(j0 & A & [->|[B C]])]; [left; auto|right; exists j0; auto..].
  - exact (s_same P).
Qed.
Lemma step_trans : forall X E1 E2 E3, step X E1 E2 -> step X E2 E3 -> step X E1 E3.
Proof.
  intros X E1 E2 E3 P Q; split. exact (s_inv Q).
  - intros c N. rewrite (@s_out _ _ _ P c N). apply (@s_out _ _ _ Q c N).
  - intros v i H. destruct (s_fwd P H) as [H1|(A & j & H1 & B)]; destruct (s_fwd Q H1) as [H2|(C & k & H2 & D)]; auto; right; split; auto; eexists; eauto.
  - intros v j H. destruct (s_bwd Q H) as (i & H1). exact (s_bwd P H1).
  - intros c H. destruct (s_keep P c H) as [H1|H1]; auto. apply (s_keep Q c H1).
  - intros c H. destruct (s_back Q c H) as [H1|H1]; auto. apply (s_back P c H1).
  - intros i j H. destruct (s_edge Q H) as [?|(j0 & H1 & J)]; auto.
    destruct (s_edge P H1) as [[A B]|(j1 & H2 & K)].
    + left; split; auto. destruct J as [->|[_ ?]]; auto.
    + right; exists j1; split; auto. destruct J as [->|[J1 J2]], K as [->|[K1 K2]]; auto.
  - intros u v i H1 H2. destruct (s_same P H1 H2) as (j & J1 & J2). exact (s_same Q J1 J2).
Qed.
Lemma closed_step : forall X E E', closed X E -> step X E E' -> closed X E'.
Proof. intros X E E' Cl P i j H K. destruct (s_edge P K) as [[_ ?]|(j0 & A & [->|[_ ?]])]; auto. eapply Cl; eauto. Qed.
Lemma pre_step : forall X E E' l, pre X E l -> step X E E' -> pre X E' l.
Proof.
  intros X E E' l H P v I. destruct (H v I) as [(i & A & B)|N].
  - left. destruct (s_fwd P A) as [C|(_ & j & C & D')]; eauto.
  - right. intros i C. destruct (s_bwd P C) as (j & C'). eapply N; eauto.
Qed.
Lemma pre_incl : forall X E l l', incl l' l -> pre X E l -> pre X E l'.
Proof. intros X E l l' I H v Iv; auto. Qed.
Lemma pre_app : forall X E l l', pre X E (l ++ l') <-> pre X E l /\ pre X E l'.
Proof. intros; split. intros H; split; intros v I; apply H; apply in_app_iff; auto. intros [A B] v I. apply in_app_iff in I as [I|I]; auto. Qed.
Lemma pre_use : forall X E l v i, ok_env E -> pre X E l -> In v l -> cl E v i -> X i.
Proof. intros X E l v i O H I Ci. destruct (H v I) as [(j & A & B)|N]. rewrite (cl_uniq O Ci A); auto. exfalso; eapply N; eauto. Qed.
Lemma step_cl : forall X E E' v, step X E E' -> ((exists i, cl E v i) <-> (exists i, cl E' v i)).
Proof. intros X E E' v P; split. intros (i & A). destruct (s_fwd P A) as [?|(_ & j & ? & _)]; eauto. intros (i & A). exact (s_bwd P A). Qed.

(** one class gets a new record, maybe swallowing another *)
Section Change.
Variables (X Y : nat -> Prop) (E E' : env) (c1 c2 c' : cls).
Hypotheses (O : ok_env E) (I1 : In c1 E) (I2 : In c2 E) (H1 : id c' = id c1) (N' : NoDup (map id E'))
  (HE : forall x, In x E' <-> x = c' \/ (In x E /\ id x <> id c1 /\ id x <> id c2))
  (HV : forall v, In v (vars c') <-> In v (vars c1) \/ In v (vars c2))
  (CY : closed Y E) (Y1 : ~ Y (id c1)) (Y2 : ~ Y (id c2)) (YX : forall i, Y i -> X i) (X1 : X (id c1)) (X2 : X (id c2))
  (HB : forall b, bound c' = Some b -> pre Y E (tvars b)).
Lemma change_cl : forall v j, cl E' v j <-> (cl E v j /\ j <> id c1 /\ j <> id c2) \/ (j = id c1 /\ (cl E v (id c1) \/ cl E v (id c2))).
Proof.
  intros v j; split.
  - intros (x & I & M & <-). apply HE in I as [->|(I & A & B)].
    + right; split; auto. apply HV in M as [M|M]; [left; exists c1|right; exists c2]; auto.
    + left; split; auto. exists x; auto.
  - intros [((x & I & M & <-) & A & B)|[-> [(x & I & M & J)|(x & I & M & J)]]].
    + exists x; split; [|auto]. apply HE; auto.
    + pose proof (@ids_inj E x c1 (e_ids O) I I1 J) as ->. exists c'; split; [apply HE; auto|]. split; auto. apply HV; auto.
    + pose proof (@ids_inj E x c2 (e_ids O) I I2 J) as ->. exists c'; split; [apply HE; auto|]. split; auto. apply HV; auto.
Qed.
Lemma change_edge : forall i j, edge E' i j -> (i = id c1 /\ Y j) \/ (i <> id c1 /\ exists j0, edge E i j0 /\ (j = j0 /\ j <> id c2 \/ (j0 = id c1 \/ j0 = id c2) /\ j = id c1)).
Proof.
  intros i j (x & b & v & I & <- & B & V & K). apply HE in I as [->|(I & A & A')].
  - left; split; auto. apply change_cl in K as [(K & _)|[-> [K|K]]].
    + eapply pre_use; eauto.
    + exfalso; apply Y1; eapply pre_use; eauto.
    + exfalso; apply Y2; eapply pre_use; eauto.
  - right; split; auto. apply change_cl in K as [(K & K1 & K2)|[-> [K|K]]]; eexists; (split; [exists x, b, v; split; [exact I|]; split; [reflexivity|]; split; [exact B|]; split; [exact V|exact K]|auto]).
Qed.
Lemma change_ok : ok_env E'.
Proof.
  split; auto.
  - intros x y v Ix Iy Mx My. apply HE in Ix as [->|(Ix & A & A')]; apply HE in Iy as [->|(Iy & B & B')]; auto.
    + exfalso. apply HV in Mx as [Mx|Mx]; [apply B|apply B']; f_equal; eapply (e_one O); eauto.
    + exfalso. apply HV in My as [My|My]; [apply A|apply A']; f_equal; eapply (e_one O); eauto.
    + eapply (e_one O); eauto.
  - assert (AY : forall i, Y i -> Acc (fun j i => edge E' i j) i).
    { intros i. induction (e_acy O i) as [i _ IH]. intros Yi. constructor. intros j K. apply change_edge in K as [[-> _]|(_ & j0 & K & J)]; [tauto|].
      assert (Y j0) by (eapply CY; eauto). destruct J as [[-> _]|[[->| ->] _]]; auto; exfalso; auto. }
    assert (A1 : Acc (fun j i => edge E' i j) (id c1)).
    { constructor. intros j K. apply change_edge in K as [[_ K]|[K _]]; [auto|congruence]. }
    intros i. induction (e_acy O i) as [i _ IH]. destruct (Nat.eq_dec i (id c1)) as [->|N]; auto.
    constructor. intros j K. apply change_edge in K as [[-> _]|(_ & j0 & K & J)]; [tauto|]. destruct J as [[-> _]|[_ ->]]; auto.
Qed.
Lemma change_step : step X E E'.
Proof.
  split. exact change_ok.
  - intros c N. rewrite HE. split; [intros I; right; split; auto; split; intros Q; apply N; rewrite Q; auto|].
    intros [->|[? _]]; auto. exfalso; apply N; rewrite H1; auto.
  - intros v i K. destruct (Nat.eq_dec i (id c1)) as [->|N1]. left; apply change_cl; auto.
    destruct (Nat.eq_dec i (id c2)) as [->|N2]. right; split; auto. exists (id c1); split; auto. apply change_cl; auto.
    left; apply change_cl; auto.
  - intros v j K. apply change_cl in K as [[K _]|[_ [K|K]]]; eauto.
  - intros c K. destruct (Nat.eq_dec (id c) (id c1)) as [->|N1]; auto. destruct (Nat.eq_dec (id c) (id c2)) as [->|N2]; auto. left; apply HE; auto.
  - intros c K. apply HE in K as [->|[K _]]; auto. right; rewrite H1; auto.
  - intros i j K. apply change_edge in K as [[-> K]|(_ & j0 & K & J)]; [left; auto|]. right; exists j0; split; auto.
    destruct J as [[-> _]|[[->| ->] ->]]; auto.
  - intros u v i K1 K2. destruct (Nat.eq_dec i (id c1)) as [->|N1]. exists (id c1); split; apply change_cl; auto.
    destruct (Nat.eq_dec i (id c2)) as [->|N2]. exists (id c1); split; apply change_cl; auto. exists i; split; apply change_cl; auto.
Qed.
End Change.

(** * Reachable classes *)
Definition reach (E : env) (l : list nat) (j : nat) : Prop := exists v i, In v l /\ cl E v i /\ clos_refl_trans_1n _ (edge E) i j.
Lemma reach_closed : forall E l, closed (reach E l) E.
Proof.
  intros E l i j (v & k & I & K & P) H. exists v, k; split; auto; split; auto.
  clear I K. induction P as [|x y z R P IH]. econstructor; eauto. constructor. econstructor; eauto.
Qed.
Lemma reach_pre : forall E l, pre (reach E l) E l.
Proof. intros E l v I. destruct (lookup_dec E v) as [[i K]|N]; auto. left; exists i; split; auto. exists v, i; split; auto; split; auto. constructor. Qed.
Lemma reach_sub : forall X E l, ok_env E -> closed X E -> pre X E l -> forall j, reach E l j -> X j.
Proof.
  intros X E l O Cl H j (v & i & I & K & P). assert (Xi : X i) by (eapply pre_use; eauto). clear I K.
  induction P as [|x y z R P IH]; auto. apply IH. eapply Cl; eauto.
Qed.
Lemma reach_app : forall E l l' j, reach E (l ++ l') j <-> reach E l j \/ reach E l' j.
Proof.
  intros; split.
  - intros (v & i & I & K). apply in_app_iff in I as [I|I]; [left|right]; exists v, i; auto.
  - intros [(v & i & I & K)|(v & i & I & K)]; exists v, i; split; auto; apply in_app_iff; auto.
Qed.
Lemma acc_irrefl : forall (A : Type) (R : A -> A -> Prop) x, Acc R x -> ~ R x x.
Proof. intros A R x H. induction H as [x _ IH]. intros K. exact (IH x K K). Qed.
Lemma acyc_not : forall E c b, ok_env E -> In c E -> bound c = Some b -> ~ reach E (tvars b) (id c).
Proof.
  intros E c b O I B (v & i & V & K & P).
  assert (e : edge E (id c) i) by (exists c, b, v; auto).
  apply (@acc_irrefl _ (clos_trans _ (fun j i => edge E i j)) (id c)). apply Acc_clos_trans, (e_acy O).
  clear V K. revert e. generalize (id c) at 1 3. induction P as [x|x y z R P IH]; intros w e. constructor; auto.
  apply t_trans with x; [apply IH; auto|constructor; auto].
Qed.
Lemma orall_false : forall l, orall l = Some false -> forall a, In a l -> a = Some false.
Proof.
  induction l as [|x l IH]; intros H a I. inversion I. cbn [orall fold_right] in H. change (fold_right _ _ l) with (orall l) in H.
  destruct x as [x|]; [|discriminate]. destruct (orall l) as [y|]; [|discriminate]. injection H as H. apply orb_false_iff in H as [-> ->].
  destruct I as [<-|I]; auto.
Qed.
Lemma occ_sound : forall E c, ok_env E -> In c E -> forall f t, occ f E (vars c) t = Some false -> ~ reach E (tvars t) (id c).
Proof.
  intros E c O Ic f t H (v & i & V & K & P). revert f t v V K H. remember (id c) as k eqn:Q. induction P as [x|x y z R P IH]; intros f t v V K H; subst.
  - destruct f as [|f]; [discriminate|]. cbn [occ] in H.
    assert (M : In v (vars c)). { destruct K as (c' & I' & M' & J). pose proof (@ids_inj E c' c (e_ids O) I' Ic J) as ->. auto. }
    pose proof (@orall_false _ H _ (in_map _ _ _ V)) as F. cbv beta in F. apply mem_In in M. rewrite M in F. discriminate.
  - destruct f as [|f]; [discriminate|]. cbn [occ] in H.
    pose proof (@orall_false _ H _ (in_map _ _ _ V)) as F. cbv beta in F. destruct (mem v (vars c)); [discriminate|].
    destruct R as (c' & b & u & I' & J & B & U & K'). destruct K as (c'' & I'' & M'' & J'').
    assert (c'' = c') as -> by (eapply ids_inj; [exact (e_ids O)| | |]; auto; congruence).
    rewrite (@lookup_in _ _ v O I' M''), B in F. exact (IH eq_refl f b u U K' F).
Qed.
Lemma occurs_sound : forall E c v, ok_env E -> In c E -> In v (vars c) -> forall f t, occurs f E t v = Some false -> ~ reach E (tvars t) (id c).
Proof. intros E c v O I M f t H. unfold occurs in H. rewrite (@lookup_in _ _ v O I M) in H. eapply occ_sound; eauto. Qed.

(** * Variables of types *)
Lemma tvars_setq : forall q t, tvars (setq q t) = tvars t.
Proof. destruct t; reflexivity. Qed.
Lemma tvars_stripref : forall t, tvars (stripref t) = tvars t.
Proof. induction t; cbn [stripref tvars]; auto. Qed.
Lemma tvars_strips : forall l, concat (map tvars (map strip l)) = concat (map tvars l).
Proof. intros; f_equal. rewrite map_map; apply map_ext. intros; apply tvars_setq. Qed.
Lemma tvars_addq : forall q t, tvars (addq q t) = tvars t.
Proof. intros; apply tvars_setq. Qed.

(** * The structure of the environment, for all types and widening modes *)
Section D.
Variable d : decls.
Definition good {A : Type} (X : nat -> Prop) (E : env) (G : A -> Prop) (r : res A) : Prop :=
  match r with Ret E' a => step X E E' /\ G a | Dangling => False | _ => True end.
Definition anyb (b : bool) : Prop := True.
Definition from (l : list nat) (r : option ty) : Prop := forall t, r = Some t -> incl (tvars t) l.
Lemma good_bind : forall A B X E (G : A -> Prop) (H : B -> Prop) r k,
  good X E G r -> (forall E' a, step X E E' -> G a -> good X E' H (k E' a)) -> good X E H (bind r k).
Proof.
  intros A B X E G H r k R K. destruct r as [| | |E' a]; cbn [bind good] in *; auto. destruct R as [S1 Ga].
  specialize (K E' a S1 Ga). destruct (k E' a) as [| | |E2 b]; cbn [good] in *; auto. destruct K as [S2 Hb]. split; auto. eapply step_trans; eauto.
Qed.
Lemma good_mono : forall A (X Y : nat -> Prop) E (G : A -> Prop) r, (forall i, X i -> Y i) -> good X E G r -> good Y E G r.
Proof. intros A X Y E G r S. destruct r; cbn [good]; auto. intros [P H]; split; auto. eapply step_mono; eauto. Qed.
Lemma good_weak : forall A (X : nat -> Prop) E (G H : A -> Prop) r, (forall a, G a -> H a) -> good X E G r -> good X E H r.
Proof. intros A X E G H r S. destruct r; cbn [good]; auto. intros [P K]; split; auto. Qed.
Lemma good_ret : forall A X E (G : A -> Prop) a, ok_env E -> G a -> good X E G (Ret E a).
Proof. intros; split; auto. apply step_refl; auto. Qed.
(** replacing one class *)
Lemma put_step : forall (X Y : nat -> Prop) E c c', ok_env E -> In c E -> id c' = id c -> (forall v, In v (vars c') <-> In v (vars c)) ->
  closed Y E -> ~ Y (id c) -> (forall i, Y i -> X i) -> X (id c) -> (forall b, bound c' = Some b -> pre Y E (tvars b)) -> step X E (put E c').
Proof.
  intros X Y E c c' O I H V CY N YX Xc B. apply change_step with (Y := Y) (c1 := c) (c2 := c) (c' := c'); auto.
  - rewrite ids_put; apply (e_ids O).
  - intros x. rewrite (@in_put E c' c x I) by auto. rewrite H. tauto.
  - intros v. rewrite V; tauto.
Qed.
(** merging two *)
Lemma merge_step : forall (X Y : nat -> Prop) E c1 c2 c', ok_env E -> In c1 E -> In c2 E -> id c1 <> id c2 -> id c' = id c1 -> (forall v, In v (vars c') <-> In v (vars c1) \/ In v (vars c2)) ->
  closed Y E -> ~ Y (id c1) -> ~ Y (id c2) -> (forall i, Y i -> X i) -> X (id c1) -> X (id c2) -> (forall b, bound c' = Some b -> pre Y E (tvars b)) ->
  step X E (erase (put E c') (id c2)).
Proof.
  intros X Y E c1 c2 c' O I1 I2 N H V CY N1 N2 YX X1 X2 B. apply change_step with (Y := Y) (c1 := c1) (c2 := c2) (c' := c'); auto.
  - apply nodup_erase. rewrite ids_put; apply (e_ids O).
  - intros x. rewrite in_erase, (@in_put E c' c1 x I1) by auto. rewrite H. split. intros [[->|?] ?]; tauto. intros [->|?]; [split; auto; congruence|tauto].
Qed.
Record okf (f : nat) : Prop := {
  o_exact : forall w t1 t2 E X, ok_env E -> closed X E -> pre X E (tvars t1) -> pre X E (tvars t2) -> good X E anyb (exact d f w t1 t2 E);
  o_lists : forall l1 l2 E X, ok_env E -> closed X E -> pre X E (concat (map tvars l1)) -> pre X E (concat (map tvars l2)) -> good X E anyb (lists d f l1 l2 E);
  o_bv : forall w v q t E X i, ok_env E -> closed X E -> cl E v i -> X i -> pre X E (tvars t) -> good X E anyb (bind_var d f w v q t E);
  o_vv : forall w v1 v2 E X i j, ok_env E -> closed X E -> cl E v1 i -> X i -> cl E v2 j -> X j -> good X E anyb (bind_vv d f w v1 v2 E);
  o_inexact : forall w t1 t2 E X, ok_env E -> closed X E -> pre X E (tvars t1) -> pre X E (tvars t2) -> good X E (from (tvars t1 ++ tvars t2)) (inexact d f w t1 t2 E);
  o_common : forall w t1 t2 E X, ok_env E -> closed X E -> pre X E (tvars t1) -> pre X E (tvars t2) -> good X E (from (tvars t1 ++ tvars t2)) (common d f w t1 t2 E);
  o_href : forall w t1 t2 E X, ok_env E -> closed X E -> pre X E (tvars t1) -> pre X E (tvars t2) -> good X E (from (tvars t1 ++ tvars t2)) (href d f w t1 t2 E);
  o_vp : forall w vp oq vb ob E X, ok_env E -> closed X E -> pre X E (tvars vb) -> pre X E (tvars ob) -> good X E (from (tvars vp)) (voidptr d f w vp oq vb ob E);
  o_fp : forall w l1 l2 E X, ok_env E -> closed X E -> pre X E (concat (map tvars l1)) -> pre X E (concat (map tvars l2)) -> good X E anyb (fparams d f w l1 l2 E)
}.
Lemma opened_some : forall E t v, opened E t = Some v -> tvars t = [v] /\ exists c, lookup E v = Some c.
Proof. intros E t v H. destruct t; try discriminate. cbn [opened] in H. destruct (lookup E v0) eqn:L; [|discriminate]. injection H as <-. split; eauto. Qed.
Lemma pre_one : forall X E v, ok_env E -> pre X E [v] -> (exists c, lookup E v = Some c) -> exists i, cl E v i /\ X i.
Proof. intros X E v O H (c & L). apply lookup_some in L as [I M]. destruct (H v) as [K|N]; auto. now left. exfalso; apply (N (id c)); exists c; auto. Qed.
(** the facts about a variable and its class that make binding safe *)
Lemma bv_frame : forall E c v b tg f, ok_env E -> In c E -> In v (vars c) -> bound c = Some b -> occurs f E tg v = Some false -> ~ reach E (tvars b ++ tvars tg) (id c).
Proof. intros E c v b tg f O I M B H K. apply reach_app in K as [K|K]. eapply acyc_not; eauto. eapply occurs_sound; eauto. Qed.
Lemma edge_pre : forall X E c b, ok_env E -> closed X E -> In c E -> X (id c) -> bound c = Some b -> pre X E (tvars b).
Proof. intros X E c b O Cl I Xc B v V. destruct (lookup_dec E v) as [[i K]|N]; auto. left; exists i; split; auto. eapply Cl; eauto. exists c, b, v; auto. Qed.
Lemma okf_all : forall f, okf f.
Proof.
  induction f as [|f IH]; [split; intros; exact I|]. split.
  - (* exact *)
    intros w t1 t2 E X O Cl P1 P2. cbn [exact]. destruct (negb (qeq (qof t1) (qof t2))). apply good_ret; auto. exact I.
    destruct (opened E t1) as [v1|] eqn:O1.
    { apply opened_some in O1 as [T1 L1]. rewrite T1 in P1. destruct (@pre_one _ _ _ O P1 L1) as (i & K1 & X1).
      destruct (opened E t2) as [v2|] eqn:O2.
      - apply opened_some in O2 as [T2 L2]. rewrite T2 in P2. destruct (@pre_one _ _ _ O P2 L2) as (j & K2 & X2).
        destruct (kind_eqb _ _). eapply (o_vv IH); eauto. apply good_ret; auto; exact I.
      - eapply (o_bv IH); eauto. }
    destruct (opened E t2) as [v2|] eqn:O2.
    { apply opened_some in O2 as [T2 L2]. rewrite T2 in P2. destruct (@pre_one _ _ _ O P2 L2) as (j & K2 & X2). eapply (o_bv IH); eauto. }
    assert (R : forall b, good X E anyb (Ret E b)) by (intros; apply good_ret; auto; exact I).
    destruct t1, t2; auto; cbn [tvars] in *; try (apply (o_exact IH); auto; fail).
    + destruct (match d0 with Some x => _ | None => _ end); auto. apply (o_exact IH); auto.
    + destruct (_ && _); auto. apply pre_app in P1 as [P1 P1'], P2 as [P2 P2']. eapply good_bind.
      { apply (o_lists IH); auto; rewrite tvars_strips; auto. }
      intros E' ok S' _. destruct ok; [|apply good_ret; [apply (s_inv S')|exact I]].
      apply (o_lists IH); eauto using closed_step, pre_step. apply (s_inv S').
    + destruct (n =? n0); auto. apply (o_lists IH); auto.
  - (* lists *)
    intros l1 l2 E X O Cl P1 P2. cbn [lists]. assert (R : forall b, good X E anyb (Ret E b)) by (intros; apply good_ret; auto; exact I).
    destruct l1 as [|x r1], l2 as [|y r2]; auto. cbn [map concat] in P1, P2. apply pre_app in P1 as [P1 P1'], P2 as [P2 P2']. eapply good_bind. apply (o_exact IH); auto.
    intros E' ok S' _. destruct ok; [|apply good_ret; [apply (s_inv S')|exact I]]. apply (o_lists IH); eauto using closed_step, pre_step. apply (s_inv S').
  - (* bind_var *)
    intros w v q t E X i O Cl K Xi P. cbn [bind_var]. assert (R : forall b, good X E anyb (Ret E b)) by (intros; apply good_ret; auto; exact I).
    assert (Pt : pre X E (tvars (stripref t))) by (rewrite tvars_stripref; auto). set (tg := stripref t) in *. destruct (negb (compat d v tg)); auto.
    destruct (occurs f E tg v) as [[|]|] eqn:Oc; auto; [|exact I].
    destruct K as (c & Ic & Mc & <-). rewrite (@lookup_in _ _ v O Ic Mc). destruct (bound c) as [b|] eqn:B.
    + pose proof (@bv_frame _ _ _ _ _ f O Ic Mc B Oc) as NR. set (Y := reach E (tvars b ++ tvars tg)) in *.
      assert (Pb : pre X E (tvars b)) by (eapply edge_pre; eauto).
      assert (YX : forall i, Y i -> X i) by (apply reach_sub; auto; apply pre_app; auto).
      assert (PY : pre Y E (tvars b ++ tvars tg)) by apply reach_pre. pose proof PY as PY'. apply pre_app in PY' as [PYb PYt].
      assert (CY : closed Y E) by apply reach_closed.
      pose proof (@o_inexact f IH (wand w (allow c, true)) (setq q b) tg E Y O CY) as G. rewrite tvars_setq in G. specialize (G PYb PYt).
      (destruct (inexact _ _ _ _ _ _) as [| | |E1 [t1|]]; [exact I|exact I|exact G|cbn [bind good] in *; destruct G as [S1 Ft]..]).
      * assert (I1 : In c E1) by (apply (s_out S1); auto). rewrite (@get_in _ _ (e_ids (s_inv S1)) I1). split; [|exact I].
        apply step_trans with E1. eapply step_mono; eauto.
        apply put_step with (Y := Y) (c := c); auto; [apply (s_inv S1)|intros; reflexivity|eapply closed_step; eauto|].
        intros b0 [= <-]. rewrite tvars_setq. eapply pre_incl; [apply Ft; reflexivity|eapply pre_step; eauto].
      * split; [|exact I]. eapply step_mono; eauto.
    + split; [|exact I]. set (Y := reach E (tvars tg)). apply put_step with (Y := Y) (c := c); auto; try tauto.
      * apply reach_closed.
      * eapply occurs_sound; eauto.
      * apply reach_sub; auto.
      * intros b [= <-]. rewrite tvars_setq. apply reach_pre.
  - (* bind_vv *)
    intros w v1 v2 E X i j O Cl K1 X1 K2 X2. cbn [bind_vv]. assert (R : forall b, good X E anyb (Ret E b)) by (intros; apply good_ret; auto; exact I).
    destruct K1 as (c1 & I1 & M1 & <-), K2 as (c2 & I2 & M2 & <-). rewrite (@lookup_in _ _ v1 O I1 M1), (@lookup_in _ _ v2 O I2 M2).
    destruct (Nat.eqb_spec (id c1) (id c2)) as [Q|N].
    { split; [|exact I]. destruct (bound c1) as [b|] eqn:B.
      - apply put_step with (Y := reach E (tvars b)) (c := c1); auto; try tauto.
        { apply reach_closed. } { eapply acyc_not; eauto. } { apply reach_sub; auto. apply (@edge_pre X E c1 b); auto. }
        cbn [bound]. intros b0 [= <-]. apply reach_pre.
      - apply put_step with (Y := fun _ => False) (c := c1); auto; try tauto. intros ? ? []. discriminate. }
    destruct (match bound c1 with Some b => occurs f E b v2 | None => Some false end) as [[|]|] eqn:Oc1; auto; [|exact I].
    destruct (match bound c2 with Some b => occurs f E b v1 | None => Some false end) as [[|]|] eqn:Oc2; auto; [|exact I].
    assert (V12 : forall v, In v (add_vars (vars c1) (vars c2)) <-> In v (vars c1) \/ In v (vars c2)) by (intros; apply add_vars_In).
    assert (V21 : forall v, In v (add_vars (vars c2) (vars c1)) <-> In v (vars c2) \/ In v (vars c1)) by (intros; apply add_vars_In).
    destruct (bound c1) as [b1|] eqn:B1, (bound c2) as [b2|] eqn:B2.
    + assert (NR1 : ~ reach E (tvars b1 ++ tvars b2) (id c1)) by (eapply bv_frame; eauto).
      assert (NR2 : ~ reach E (tvars b1 ++ tvars b2) (id c2)).
      { intros H. apply reach_app in H as [H|H]. eapply occurs_sound; eauto. eapply acyc_not; eauto. }
      set (Y := reach E (tvars b1 ++ tvars b2)) in *.
      assert (YX : forall i, Y i -> X i) by (apply reach_sub; auto; apply pre_app; split; [apply (@edge_pre X E c1 b1)|apply (@edge_pre X E c2 b2)]; auto).
      assert (PY : pre Y E (tvars b1 ++ tvars b2)) by apply reach_pre. pose proof PY as PY'. apply pre_app in PY' as [PY1 PY2].
      assert (CY : closed Y E) by apply reach_closed.
      pose proof (@o_inexact f IH (fst w && allow c1, snd w && allow c2) b1 b2 E Y O CY PY1 PY2) as G.
      (destruct (inexact _ _ _ _ _ _) as [| | |E1 [t1|]]; [exact I|exact I|exact G|cbn [bind good] in *; destruct G as [S1 Ft]..]).
      * assert (J1 : In c1 E1) by (apply (s_out S1); auto). assert (J2 : In c2 E1) by (apply (s_out S1); auto).
        rewrite (@get_in _ _ (e_ids (s_inv S1)) J1), (@get_in _ _ (e_ids (s_inv S1)) J2). split; [|exact I].
        apply step_trans with E1. eapply step_mono; eauto.
        apply merge_step with (Y := Y) (c1 := c1); auto; [apply (s_inv S1)|eapply closed_step; eauto|].
        intros b0 [= <-]. rewrite tvars_setq. eapply pre_incl; [apply Ft; reflexivity|eapply pre_step; eauto].
      * split; [|exact I]. eapply step_mono; eauto.
    + split; [|exact I]. apply merge_step with (Y := reach E (tvars b1)) (c1 := c1); auto.
      * apply reach_closed.
      * eapply acyc_not; eauto.
      * eapply occurs_sound; eauto.
      * apply reach_sub; auto. apply (@edge_pre X E c1 b1); auto.
      * intros b [= <-]. apply reach_pre.
    + split; [|exact I]. apply merge_step with (Y := reach E (tvars b2)) (c1 := c2); auto.
      * apply reach_closed.
      * eapply acyc_not; eauto.
      * eapply occurs_sound; eauto.
      * apply reach_sub; auto. apply (@edge_pre X E c2 b2); auto.
      * intros b [= <-]. apply reach_pre.
    + split; [|exact I]. apply merge_step with (Y := fun _ => False) (c1 := c2); auto; try tauto. intros ? ? []. discriminate.
  - (* inexact *)
    intros w t1 t2 E X O Cl P1 P2. cbn [inexact]. eapply good_bind. { apply (o_exact IH); auto; rewrite tvars_setq; auto. }
    intros E' ok S' _. destruct ok.
    + apply good_ret. apply (s_inv S'). intros t. destruct (_ || _); [|discriminate]. intros [= <-]. rewrite tvars_setq. apply incl_appl, incl_refl.
    + eapply good_bind. { apply (o_common IH) with (t1 := setq noq t1) (t2 := setq noq t2); [apply (s_inv S')|eapply closed_step; eauto|rewrite tvars_setq; eapply pre_step; eauto..]. }
      intros E2 r S2 F. apply good_ret. apply (s_inv S2). intros t. destruct r as [c|]; [|discriminate]. intros [= <-]. rewrite tvars_setq. rewrite !tvars_setq in F. apply F; auto.
  - (* common *)
    intros w t1 t2 E X O Cl P1 P2. cbn [common]. destruct (negb (Nat.eqb (depth t1) (depth t2))).
    + eapply good_bind with (G := from (tvars t1 ++ tvars t2)).
      * assert (HR : forall a b, tvars a = tvars t1 -> tvars b = tvars t2 -> good X E (from (tvars t1 ++ tvars t2)) (href d f w a b E)).
        { intros a b Ea Eb. rewrite <- Ea, <- Eb in *. apply (o_href IH); auto. }
        destruct t1, t2; try exact I; try (apply HR; reflexivity). destruct (Nat.ltb _ _); apply HR; reflexivity.
      * intros E' r S' F. apply good_ret; [apply (s_inv S')|]. intros t H. destruct r as [c|]; [|discriminate]. destruct t1; injection H as <-; cbn [tvars]; apply F; auto.
    + assert (R : forall r, from (tvars t1 ++ tvars t2) r -> good X E (from (tvars t1 ++ tvars t2)) (Ret E r)) by (intros; apply good_ret; auto).
      assert (RN : good X E (from (tvars t1 ++ tvars t2)) (Ret E None)) by (apply R; discriminate).
      assert (RB : forall (b : bool) q k, from (tvars t1 ++ tvars t2) (if b then Some (Basic q k) else None)) by (intros [|] q k t [= <-]; apply incl_nil_l).
      assert (R1 : forall b : bool, from (tvars t1 ++ tvars t2) (if b then Some t1 else None)) by (intros [|] t [= <-]; apply incl_appl, incl_refl).
      assert (R2 : forall (b : bool) q, from (tvars t1 ++ tvars t2) (if b then Some (addq q t2) else None)) by (intros [|] q t [= <-]; rewrite tvars_addq; apply incl_appr, incl_refl).
      assert (R3 : forall (b : bool) q, from (tvars t1 ++ tvars t2) (if b then Some (addq q t1) else None)) by (intros [|] q t [= <-]; rewrite tvars_addq; apply incl_appl, incl_refl).
      destruct t1 eqn:T1; try exact RN.
      * (* basic *) destruct t2 eqn:T2; try exact RN; try (apply R, RB; fail).
        -- apply R. destruct (_ && _ && _); [discriminate|apply RB].
        -- apply R. destruct (cenum d n); [apply RB|discriminate].
      * (* pointer *) destruct t2 eqn:T2; try exact RN; [|apply R, R3].
        cbn [tvars] in P1, P2.
        destruct (_ && _ && _). { eapply good_weak; [|apply (o_vp IH) with (vp := Ptr q0 t0)]; auto. intros r F t' H. apply incl_appr, F; auto. }
        destruct (_ && _ && _). { eapply good_weak; [|apply (o_vp IH) with (vp := Ptr q t)]; auto. intros r F t' H. apply incl_appl, F; auto. }
        destruct (qmerge _ _ _); [|exact RN]. eapply good_bind. { apply (o_exact IH); auto; rewrite tvars_setq; auto. }
        intros E' ok S' _.
        assert (RN' : good X E' (from (tvars (Ptr q t) ++ tvars (Ptr q0 t0))) (Ret E' None)) by (apply good_ret; [apply (s_inv S')|discriminate]).
        destruct ok. { apply good_ret; [apply (s_inv S')|]. intros t' [= <-]. cbn [tvars]. destruct (qeq _ _); [|rewrite tvars_setq]; apply incl_appl, incl_refl. }
        destruct (isftype d t && isftype d t0); [|exact RN'].
        destruct t; try exact RN'. destruct t0; try exact I. destruct (_ && _); [|exact I]. destruct (_ && _); [|exact RN'].
        cbn [tvars] in P1, P2. apply pre_app in P1 as [P1 P1'], P2 as [P2 P2'].
        eapply good_bind. { apply (o_fp IH); [apply (s_inv S')|eapply closed_step; eauto|rewrite tvars_strips; eapply pre_step; eauto..]. }
        intros E2 ok S2 _. pose proof (step_trans S' S2) as S12.
        destruct ok; [|apply good_ret; [apply (s_inv S2)|discriminate]].
        eapply good_bind. { apply (o_lists IH); [apply (s_inv S2)|eapply closed_step; eauto|eapply pre_step; eauto..]. }
        intros E3 ok S3 _. apply good_ret; [apply (s_inv S3)|apply R1].
      * (* reference *) destruct t2 eqn:T2; try exact RN.
        cbn [tvars] in P1, P2.
        destruct (_ && _ && _). { eapply good_weak; [|apply (o_vp IH) with (vp := Ref q0 t0)]; auto. intros r F t' H. apply incl_appr, F; auto. }
        destruct (_ && _ && _). { eapply good_weak; [|apply (o_vp IH) with (vp := Ref q t)]; auto. intros r F t' H. apply incl_appl, F; auto. }
        destruct (qmerge _ _ _); [|exact RN]. eapply good_bind. { apply (o_exact IH); auto; rewrite tvars_setq; auto. }
        intros E' ok S' _. apply good_ret; [apply (s_inv S')|]. intros t'. destruct ok; [|discriminate]. intros [= <-]. cbn [tvars]. destruct (qeq _ _); [|rewrite tvars_setq]; apply incl_appl, incl_refl.
      * (* enumeration *) destruct t2 eqn:T2; try (apply R, R1; fail); (destruct (cenum d n); [|exact RN]);
          (eapply good_weak; [|apply (o_common IH) with (t1 := Basic noq 7)]; eauto; intros v []).
      * (* zero *) destruct t2; try exact RN; apply R; auto.
      * (* one *) destruct t2; try exact RN; apply R; auto.
  - (* href *)
    intros w t1 t2 E X O Cl P1 P2. cbn [href]. eapply good_bind. { apply (o_inexact IH); auto. }
    intros E' r S' F. apply good_ret; [apply (s_inv S')|]. intros t. destruct r as [c|]; [|discriminate]. destruct (_ && _); [|discriminate]. intros [= <-]. rewrite tvars_addq. apply F; auto.
  - (* voidptr *)
    intros w vp oq vb ob E X O Cl P1 P2. cbn [voidptr]. destruct (opened E ob) as [v|] eqn:Op.
    + apply opened_some in Op as [T L]. rewrite T in P2. destruct (@pre_one _ _ _ O P2 L) as (i & K & Xi).
      eapply good_bind. { eapply (o_bv IH); eauto. }
      intros E' ok S' _. apply good_ret; [apply (s_inv S')|]. intros t. destruct ok; [|discriminate]. intros [= <-]. rewrite tvars_addq. apply incl_refl.
    + apply good_ret; auto. intros t [= <-]. rewrite tvars_addq. apply incl_refl.
  - (* fparams *)
    intros w l1 l2 E X O Cl P1 P2. cbn [fparams]. assert (R : forall b, good X E anyb (Ret E b)) by (intros; apply good_ret; auto; exact I).
    destruct l1 as [|x r1], l2 as [|y r2]; auto. cbn [map concat] in P1, P2. apply pre_app in P1 as [P1 P1'], P2 as [P2 P2'].
    set (next := fun (E0 : env) (ok : bool) => _).
    assert (Nx : forall E' ok, step X E E' -> good X E' anyb (next E' ok)).
    { intros E' ok S'. unfold next. destruct ok; [|apply good_ret; [apply (s_inv S')|exact I]]. apply (o_fp IH); eauto using closed_step, pre_step. apply (s_inv S'). }
    assert (NE : good X E anyb (next E true)) by (apply Nx, step_refl; auto).
    assert (NX : forall a b, pre X E (tvars a) -> pre X E (tvars b) -> good X E anyb (bind (exact d f nowiden a b E) next)).
    { intros a b Pa Pb. eapply good_bind. apply (o_exact IH); auto. intros; apply Nx; auto. }
    destruct x; try (apply NX; auto; fail); destruct y; auto; cbn [tvars] in *.
    + destruct (_ || _); auto. apply NX; rewrite tvars_setq; auto.
    + destruct (_ || _); auto. destruct (_ || _); auto. apply NX; rewrite tvars_setq; auto.
Qed.
End D.
