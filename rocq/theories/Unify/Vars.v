(** Unification never brings in a variable that was not there: the bindings mention only the variables of the old bindings and of the two types. *)
From Coq Require Import List Bool Arith.
From Verif Require Import Unify.Model Unify.Proofs.
Import ListNotations.
Section V.
Variables (d : decls) (V : nat -> Prop).
Definition tv (t : ty) : Prop := forall v, In v (tvars t) -> V v.
Definition bv (E : env) : Prop := forall c b, In c E -> bound c = Some b -> tv b.
Definition gv {A : Type} (G : A -> Prop) (r : res A) : Prop := match r with Ret E a => bv E /\ G a | _ => True end.
Definition ot (r : option ty) : Prop := match r with Some t => tv t | None => True end.
Lemma gv_bind : forall A B (G : A -> Prop) (H : B -> Prop) r k, gv G r -> (forall E a, bv E -> G a -> gv H (k E a)) -> gv H (bind r k).
Proof. intros A B G H r k R K. destruct r; cbn [bind gv] in *; auto. destruct R; auto. Qed.
Lemma bv_put : forall E c, bv E -> (forall b, bound c = Some b -> tv b) -> bv (put E c).
Proof. intros E c H B x b I K. apply in_map_iff in I as (y & <- & I). destruct (Nat.eqb (id y) (id c)); eauto. Qed.
Lemma bv_erase : forall E i, bv E -> bv (erase E i).
Proof. intros E i H x b I K. apply in_erase in I as [I _]. eauto. Qed.
Lemma bv_app : forall E c, bv E -> (forall b, bound c = Some b -> tv b) -> bv (E ++ [c]).
Proof. intros E c H B x b I K. apply in_app_iff in I as [I|[<-|[]]]; eauto. Qed.
Lemma tv_setq : forall q t, tv (setq q t) <-> tv t.
Proof. intros. unfold tv. rewrite tvars_setq. tauto. Qed.
Lemma tv_stripref : forall t, tv (stripref t) <-> tv t.
Proof. intros. unfold tv. rewrite tvars_stripref. tauto. Qed.
Lemma tv_addq : forall q t, tv (addq q t) <-> tv t.
Proof. intros. unfold tv. rewrite tvars_addq. tauto. Qed.
Lemma tv_list : forall l, (forall v, In v (concat (map tvars l)) -> V v) <-> Forall tv l.
Proof.
  induction l as [|x l IH]; cbn [map concat]. split; [constructor|intros _ v []]. split.
  - intros H. constructor; [intros v I; apply H, in_or_app; auto|apply IH; intros v I; apply H, in_or_app; auto].
  - intros H v I. inversion H; subst. apply in_app_or in I as [I|I]; [auto|apply IH; auto].
Qed.
Lemma tv_agg : forall q n l, tv (Agg q n l) <-> Forall tv l.
Proof. intros. apply tv_list. Qed.
Lemma tv_fun : forall q l m, tv (Fun q l m) <-> Forall tv l /\ Forall tv m.
Proof.
  intros. rewrite <- !tv_list. unfold tv. cbn [tvars]. split; [intros H; split; intros v I; apply H, in_or_app; auto|]. intros [H1 H2] v I. apply in_app_or in I as [I|I]; auto.
Qed.
Lemma tv_strips : forall l, Forall tv l -> Forall tv (map strip l).
Proof. induction 1; constructor; auto. apply tv_setq; auto. Qed.
Record vf (f : nat) : Prop := {
  v_exact : forall w t1 t2 E, bv E -> tv t1 -> tv t2 -> gv anyb (exact d f w t1 t2 E);
  v_lists : forall l1 l2 E, bv E -> Forall tv l1 -> Forall tv l2 -> gv anyb (lists d f l1 l2 E);
  v_bv : forall w v q t E, bv E -> tv t -> gv anyb (bind_var d f w v q t E);
  v_vv : forall w v1 v2 E, bv E -> gv anyb (bind_vv d f w v1 v2 E);
  v_inexact : forall w t1 t2 E, bv E -> tv t1 -> tv t2 -> gv ot (inexact d f w t1 t2 E);
  v_common : forall w t1 t2 E, bv E -> tv t1 -> tv t2 -> gv ot (common d f w t1 t2 E);
  v_href : forall w t1 t2 E, bv E -> tv t1 -> tv t2 -> gv ot (href d f w t1 t2 E);
  v_vp : forall w vp oq vb ob E, bv E -> tv vp -> tv vb -> gv ot (voidptr d f w vp oq vb ob E);
  v_fp : forall w l1 l2 E, bv E -> Forall tv l1 -> Forall tv l2 -> gv anyb (fparams d f w l1 l2 E)
}.
Lemma look_tv : forall E v c b, bv E -> lookup E v = Some c -> bound c = Some b -> tv b.
Proof. intros E v c b H L B. apply lookup_some in L as [I _]. eauto. Qed.
Lemma get_tv : forall E i c b, bv E -> get E i = Some c -> bound c = Some b -> tv b.
Proof. intros E i c b H L B. apply get_some in L as [I _]. eauto. Qed.
Lemma gv_ret : forall A (G : A -> Prop) E a, bv E -> G a -> gv G (Ret E a).
Proof. intros; split; auto. Qed.
Ltac tvs := repeat first [ rewrite tv_setq | rewrite tv_addq | rewrite tv_stripref ]; auto.
Ltac go := match goal with
  | |- gv _ (Ret _ _) => apply gv_ret; [auto|]
  | |- anyb _ => exact I
  | |- gv _ Fuel => exact I
  | |- gv _ Assert => exact I
  | |- gv _ Dangling => exact I
  | |- gv _ (if ?x then _ else _) => destruct x eqn:?
  | |- ot (if ?x then _ else _) => destruct x eqn:?
  | |- ot (match ?x with _ => _ end) => destruct x eqn:?
  | |- ot None => exact I
  | |- ot (Some _) => unfold ot; tvs
  | |- gv _ (match ?x with _ => _ end) => destruct x eqn:?
  end.
Lemma vf_all : forall f, vf f.
Proof.
  induction f as [|f IH]; [split; intros; exact I|]. split.
  - intros w t1 t2 E B H1 H2. cbn [exact]. destruct (negb _); [go; go|].
    destruct (opened E t1) as [v1|], (opened E t2) as [v2|].
    + go; [apply (@v_vv f IH); auto|repeat go].
    + apply (@v_bv f IH); auto.
    + apply (@v_bv f IH); auto.
    + destruct t1, t2; try (repeat go; fail); try (apply (@v_exact f IH); assumption).
      * cbv zeta. destruct (match d0 with Some _ => _ | None => _ end); [apply (@v_exact f IH); assumption|repeat go].
      * apply tv_fun in H1 as [P1 R1], H2 as [P2 R2]. go; [|repeat go]. eapply gv_bind; [apply (@v_lists f IH); auto using tv_strips|]. intros E' ok B' _. go; [apply (@v_lists f IH); auto|repeat go].
      * apply tv_agg in H1, H2. go; [apply (@v_lists f IH); auto|repeat go].
  - intros l1 l2 E B H1 H2. cbn [lists]. destruct H1, H2; try (repeat go; fail). eapply gv_bind; [apply (@v_exact f IH); auto|]. intros E' ok B' _. go; [apply (@v_lists f IH); auto|repeat go].
  - intros w v q t E B H. cbn [bind_var]. cbv zeta. go; [repeat go|]. destruct (occurs f E (stripref t) v) as [[|]|]; try (repeat go; fail).
    destruct (lookup E v) as [c|] eqn:L.
    + destruct (bound c) as [b|] eqn:K.
      * eapply gv_bind; [apply (@v_inexact f IH); tvs; eapply look_tv; eauto|]. intros E' r B' R. destruct r as [t'|]; [|repeat go]. destruct (get E' (id c)) eqn:G; [|repeat go].
        apply gv_ret; [|exact I]. apply bv_put; auto. cbn [bound]. intros b' [= <-]. tvs.
      * apply gv_ret; [|exact I]. apply bv_put; auto. cbn [bound]. intros b' [= <-]. tvs.
    + apply gv_ret; [|exact I]. apply bv_app; auto. cbn [bound]. intros b' [= <-]. tvs.
  - intros w v1 v2 E B. cbn [bind_vv]. cbv zeta. destruct (lookup E v1) as [c1|] eqn:L1, (lookup E v2) as [c2|] eqn:L2.
    + assert (B1 : forall b, bound c1 = Some b -> tv b) by eauto using look_tv. assert (B2 : forall b, bound c2 = Some b -> tv b) by eauto using look_tv.
      destruct (Nat.eqb _ _); [apply gv_ret; [apply bv_put; auto|exact I]|].
      destruct (match bound c1 with Some b => _ | None => _ end) as [[|]|]; try (repeat go; fail).
      destruct (match bound c2 with Some b => _ | None => _ end) as [[|]|]; try (repeat go; fail).
      destruct (bound c1) as [b1|] eqn:K1; [destruct (bound c2) as [b2|] eqn:K2|].
      * eapply gv_bind; [apply (@v_inexact f IH); auto|]. intros E' r B' R. destruct r as [t|]; [|repeat go]. destruct (get E' (id c1)), (get E' (id c2)); try (repeat go; fail).
        apply gv_ret; [|exact I]. apply bv_erase, bv_put; auto. cbn [bound]. intros b [= <-]. tvs.
      * apply gv_ret; [|exact I]. apply bv_erase, bv_put; auto.
      * apply gv_ret; [|exact I]. apply bv_erase, bv_put; auto.
    + destruct (match bound c1 with Some b => _ | None => _ end) as [[|]|]; try (repeat go; fail). apply gv_ret; [|exact I]. apply bv_put; auto. cbn [bound]. eauto using look_tv.
    + destruct (match bound c2 with Some b => _ | None => _ end) as [[|]|]; try (repeat go; fail). apply gv_ret; [|exact I]. apply bv_put; auto. cbn [bound]. eauto using look_tv.
    + apply gv_ret; [|exact I]. apply bv_app; auto. discriminate.
  - intros w t1 t2 E B H1 H2. cbn [inexact]. cbv zeta. eapply gv_bind; [apply (@v_exact f IH); tvs|]. intros E' ok B' _. destruct ok; [repeat go|].
    eapply gv_bind; [apply (@v_common f IH); tvs|]. intros E2 r B2 R. apply gv_ret; auto. destruct r; [|exact I]. unfold ot. tvs.
  - intros w t1 t2 E B H1 H2. cbn [common]. destruct (negb _).
    + eapply gv_bind with (G := ot).
      * destruct t1, t2; try exact I; try (apply (@v_href f IH); assumption). destruct (Nat.ltb _ _); apply (@v_href f IH); assumption.
      * intros E' r B' R. apply gv_ret; auto. destruct r; [|destruct t1; exact I]. destruct t1; exact R.
    + destruct t1, t2; try (apply gv_ret; [assumption|]; repeat go; fail).
      all: try (apply gv_ret; [assumption|]; repeat go; (assumption || intros ? [])).
      all: try (destruct (cenum d n); [apply (@v_common f IH); [assumption|intros ? []|assumption]|repeat go]).
      * destruct (_ && _ && _); [apply (@v_vp f IH); assumption|]. destruct (_ && _ && _); [apply (@v_vp f IH); assumption|]. destruct (qmerge _ _ _); [|repeat go].
        eapply gv_bind; [apply (@v_exact f IH); [assumption|apply tv_setq; assumption..]|]. intros E' ok B' _. destruct ok.
        { apply gv_ret; [assumption|]. unfold ot. destruct (qeq _ _); [assumption|]. exact (proj2 (tv_setq (qor (qof t1) (qof t2)) t1) H1). }
        destruct (_ && _); [|repeat go]. destruct t1; try (repeat go; fail). destruct t2; try (repeat go; fail).
        destruct (proj1 (tv_fun q1 ps rs) H1) as [P1 R1]. destruct (proj1 (tv_fun q2 ps0 rs0) H2) as [P2 R2]. destruct (_ && _); [|repeat go]. destruct (_ && _); [|repeat go].
        eapply gv_bind; [apply (@v_fp f IH); auto using tv_strips|]. intros E2 ok B2 _. destruct ok; [|repeat go]. eapply gv_bind; [apply (@v_lists f IH); auto|].
        intros E3 ok B3 _. apply gv_ret; auto. destruct ok; [exact H1|exact I].
      * destruct (_ && _ && _); [apply (@v_vp f IH); assumption|]. destruct (_ && _ && _); [apply (@v_vp f IH); assumption|]. destruct (qmerge _ _ _); [|repeat go].
        eapply gv_bind; [apply (@v_exact f IH); [assumption|apply tv_setq; assumption..]|]. intros E' ok B' _. apply gv_ret; [assumption|]. destruct ok; [|exact I].
        unfold ot. destruct (qeq _ _); [assumption|]. exact (proj2 (tv_setq (qor (qof t1) (qof t2)) t1) H1).
  - intros w t1 t2 E B H1 H2. cbn [href]. eapply gv_bind; [apply (@v_inexact f IH); auto|]. intros E' r B' R. apply gv_ret; auto. destruct r; [|exact I]. destruct (_ && _); [|exact I]. unfold ot. tvs.
  - intros w vp oq vb ob E B H1 H2. cbn [voidptr]. destruct (opened E ob); [|apply gv_ret; auto; unfold ot; tvs]. eapply gv_bind; [apply (@v_bv f IH); auto|].
    intros E' ok B' _. apply gv_ret; auto. destruct ok; [|exact I]. unfold ot; tvs.
  - intros w l1 l2 E B H1 H2. cbn [fparams]. cbv zeta. destruct H1 as [|x l1 X L1], H2 as [|y l2 Y L2]; try (repeat go; fail).
    assert (N : forall E' (ok : bool), bv E' -> gv anyb (if ok then fparams d f w l1 l2 E' else Ret E' false)) by (intros E' ok B'; destruct ok; [apply (@v_fp f IH); auto|repeat go]).
    assert (NB : forall r, gv anyb r -> gv anyb (bind r (fun E' (ok : bool) => if ok then fparams d f w l1 l2 E' else Ret E' false))) by (intros r R; eapply gv_bind; [exact R|]; auto).
    destruct x; try (apply NB; apply (@v_exact f IH); assumption); destruct y; try (repeat go; fail).
    + destruct (_ || _); [apply NB; apply (@v_exact f IH); [assumption|apply tv_setq; assumption..]|apply (N E true); assumption].
    + destruct (_ || _); [|repeat go]. destruct (_ || _); [apply NB; apply (@v_exact f IH); [assumption|apply tv_setq; assumption..]|apply (N E true); assumption].
Qed.
End V.
