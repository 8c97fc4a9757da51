From Coq Require Import List Bool Arith Lia.
From Verif.FastBlock Require Import Spec Model.
Import ListNotations.
Ltac sf := cbn [held q cq ts d arr gr] in *.

Definition queued (k : tst) : bool := match k with FLock | FQ | FN1 => true | _ => false end.
Definition tok (s : st) (t : nat) : Prop :=
  (In t (q s) <-> queued (ts s t) = true) /\
  (forall c, In t (cq s c) <-> (ts s t = FW1 c \/ ts s t = FW2 c)) /\
  match ts s t with FW1 _ | FN1 => d s t = true | FLock | FW2 _ | FQ => d s t = false | FRun => True end /\
  (d s t = true -> held s = true).
Definition Inv (hold : bool) (s : st) : Prop :=
  (hold = true -> held s = false -> q s = []) /\
  NoDup (q s) /\ (forall c, NoDup (cq s c)) /\ (forall t, tok s t) /\ exclusive (d s) /\ arr s = gr s ++ q s /\
  (held s = true -> exists t, d s t = true).

Lemma upd_same : forall A (f : nat -> A) i x, upd f i x i = x.
Proof. intros. unfold upd. now rewrite Nat.eqb_refl. Qed.
Lemma upd_other : forall A (f : nat -> A) i j x, j <> i -> upd f i x j = f j.
Proof. intros A f i j x N. unfold upd. destruct (Nat.eqb_spec j i); [contradiction|reflexivity]. Qed.
Lemma in_snoc : forall (l : list nat) x t, In t (l ++ [x]) <-> In t l \/ t = x.
Proof. intros. rewrite in_app_iff. cbn. intuition. Qed.
Lemma nodup_snoc : forall (l : list nat) x, NoDup l -> ~ In x l -> NoDup (l ++ [x]).
Proof.
  induction l as [|y l IH]; intros x H N; cbn; [constructor; [intros []|constructor]|].
  inversion H; subst. constructor; [|apply IH; [assumption|]].
  - rewrite in_snoc. intros [X|X]; [contradiction|]. apply N. now left.
  - intros X. apply N. now right.
Qed.
Ltac parts H := destruct H as (HH & ND & NC & T & EX & FA & HE).

Lemma tok_ext : forall s s' t, (In t (q s') <-> In t (q s)) -> (forall c, In t (cq s' c) <-> In t (cq s c)) -> ts s' t = ts s t -> d s' t = d s t ->
  (d s t = true -> held s' = true) -> tok s t -> tok s' t.
Proof.
  intros s s' t Q C K D H (A & B & X & Y). unfold tok. rewrite K, D. split; [now rewrite Q|]. split; [intros c; rewrite C; apply B|]. auto.
Qed.

Lemma unlock_inv : forall hold s t k, Inv hold s -> d s t = true ->
  (ts s t = FRun /\ k = FRun \/ (exists c, ts s t = FW1 c /\ k = FW2 c) \/ ts s t = FN1 /\ k = FQ) -> Inv hold (unlock s t k).
Proof.
  intros hold s t k I D K. parts I.
  assert (ND0 : forall u, u <> t -> d s u = false).
  { intros u N. destruct (d s u) eqn:E; [|reflexivity]. destruct (N (EX _ _ E D)). }
  assert (QK : queued k = queued (ts s t)) by (destruct K as [[-> ->]|[[c [-> ->]]|[-> ->]]]; reflexivity).
  assert (CK : forall c, (k = FW1 c \/ k = FW2 c) <-> In t (cq s c)).
  { intros c. destruct (T t) as (_ & C & _). rewrite C. destruct K as [[-> ->]|[[c' [-> ->]]|[-> ->]]]; intuition (try discriminate); left + right; congruence. }
  assert (XK : k = FRun \/ (exists c, k = FW2 c) \/ k = FQ) by (destruct K as [[_ ->]|[[c [_ ->]]|[_ ->]]]; eauto).
  unfold unlock. destruct (q s) as [|x l] eqn:Q.
  - unfold Inv; sf. split; [auto|]. split; [constructor|]. split; [exact NC|]. split; [|split; [|split; [exact FA|discriminate]]].
    + intros u. destruct (T u) as (A & C & X & Y). unfold tok; sf. rewrite Q in A. destruct (Nat.eq_dec u t) as [->|N].
      * rewrite !upd_same. rewrite QK. split; [exact A|]. split; [intros c; symmetry; apply CK|]. split; [|discriminate].
        destruct XK as [->|[[c ->]| ->]]; auto.
      * rewrite !upd_other by exact N. rewrite (ND0 u N) in *. split; [exact A|]. split; [exact C|]. split; [exact X|discriminate].
    + intros u v. unfold upd. destruct (Nat.eqb_spec u t), (Nat.eqb_spec v t); try discriminate. intros. now apply EX.
  - inversion ND as [|? ? NX ND']; subst.
    assert (QX : queued (ts s x) = true) by (apply T; rewrite Q; now left).
    unfold Inv; sf. split; [discriminate|]. split; [exact ND'|]. split; [exact NC|]. split; [|split; [|split; [rewrite FA, <- app_assoc; reflexivity|]]].
    + intros u. destruct (T u) as (A & C & X & Y). unfold tok; sf. rewrite Q in A. destruct (Nat.eq_dec u x) as [->|N].
      * rewrite !upd_same. cbn. split; [split; [intros H; contradiction|discriminate]|]. split; [|auto].
        intros c. rewrite C. destruct (ts s x); try discriminate QX; intuition discriminate.
      * rewrite !(upd_other _ _ x u) by exact N. assert (A' : In u l <-> queued (ts s u) = true) by (rewrite <- A; cbn; intuition congruence).
        destruct (Nat.eq_dec u t) as [->|NT].
        -- rewrite !upd_same. rewrite QK. split; [exact A'|]. split; [intros c; symmetry; apply CK|]. split; [|auto].
           destruct XK as [->|[[c ->]| ->]]; auto.
        -- rewrite !upd_other by exact NT. rewrite (ND0 u NT) in *. split; [exact A'|]. split; [exact C|]. split; [exact X|discriminate].
    + intros u v. unfold upd. destruct (Nat.eqb_spec u x), (Nat.eqb_spec v x); try congruence; destruct (Nat.eqb_spec u t), (Nat.eqb_spec v t); try discriminate.
      * intros _ Hv. rewrite (ND0 v) in Hv by assumption. discriminate.
      * intros _ Hv. rewrite (ND0 v) in Hv by assumption. discriminate.
      * intros Hu _. rewrite (ND0 u) in Hu by assumption. discriminate.
      * intros Hu _. rewrite (ND0 u) in Hu by assumption. discriminate.
      * intros. now apply EX.
    + intros _. exists x. apply upd_same.
Qed.

Lemma step_inv : forall hold s o s', Inv hold s -> step hold s o = Some s' -> Inv hold s'.
Proof.
  intros hold s o s' I H. destruct o as [t|t|t c|t|t c]; cbn [step] in H.
  - destruct (ts s t) eqn:K; try discriminate. destruct (d s t) eqn:D; [discriminate|]. inversion H; subst; clear H. parts I. unfold lock.
    destruct (T t) as (At & Ct & Xt & Yt). rewrite K in *. destruct (held s) eqn:HD.
    + unfold Inv; sf. split; [discriminate|]. split; [apply nodup_snoc; [exact ND|rewrite At; discriminate]|]. split; [exact NC|].
      split; [|split; [exact EX|split; [rewrite FA; now rewrite app_assoc|auto]]].
      intros u. destruct (Nat.eq_dec u t) as [->|N].
      * unfold tok; sf. rewrite upd_same, in_snoc. cbn. split; [intuition|]. split; [intros c; rewrite Ct; intuition discriminate|]. auto.
      * apply (tok_ext s); sf; [rewrite in_snoc; intuition congruence|reflexivity|now apply upd_other|reflexivity|auto|apply T].
    + assert (DN : forall u, d s u = false) by (intros u; destruct (d s u) eqn:E; [|reflexivity]; destruct (T u) as (_ & _ & _ & Y); rewrite (Y E) in HD; discriminate).
      unfold Inv; sf. split; [discriminate|]. split; [exact ND|]. split; [exact NC|]. split; [|split; [|split; [exact FA|intros _; exists t; apply upd_same]]].
      * intros u. destruct (Nat.eq_dec u t) as [->|N].
        -- unfold tok; sf. rewrite upd_same, K. auto.
        -- apply (tok_ext s); sf; [reflexivity|reflexivity|reflexivity|now apply upd_other|auto|apply T].
      * intros u v. unfold upd. destruct (Nat.eqb_spec u t), (Nat.eqb_spec v t); try congruence; rewrite ?DN; discriminate.
  - destruct (ts s t) eqn:K; try discriminate. destruct (d s t) eqn:D; [|discriminate]. inversion H; subst. apply unlock_inv; auto.
  - destruct (ts s t) eqn:K; try discriminate. destruct (d s t) eqn:D; [|discriminate]. inversion H; subst; clear H. parts I.
    destruct (T t) as (At & Ct & Xt & Yt). rewrite K in *.
    assert (NI : forall c', ~ In t (cq s c')) by (intros c' X; apply Ct in X; destruct X; discriminate).
    unfold Inv; sf. split; [exact HH|]. split; [exact ND|]. split.
    { intros c'. unfold upd. destruct (c' =? c) eqn:E; [|apply NC]. apply Nat.eqb_eq in E. subst. apply nodup_snoc; auto. }
    split; [|auto]. intros u. destruct (Nat.eq_dec u t) as [->|N].
    + unfold tok; sf. rewrite upd_same. cbn. split; [exact At|]. split; [|auto].
      intros c'. unfold upd. destruct (Nat.eqb_spec c' c) as [E|E]; [subst; rewrite in_snoc; intuition|].
      split; [intros X; destruct (NI _ X)|intros [X|X]; congruence].
    + apply (tok_ext s); sf; [reflexivity| |now apply upd_other|reflexivity|apply T|apply T].
      intros c'. unfold upd. destruct (Nat.eqb_spec c' c) as [E|E]; [subst; rewrite in_snoc; intuition congruence|reflexivity].
  - destruct (ts s t) eqn:K; try discriminate; inversion H; subst; clear H; pose proof I as I0; parts I; destruct (T t) as (_ & _ & X & _); rewrite K in X; apply unlock_inv; eauto 6.
  - destruct (ts s t) eqn:K; try discriminate. destruct (d s t || negb hold) eqn:G; [|discriminate]. destruct (cq s c) as [|x l] eqn:C; inversion H; subst; [exact I|]. clear H.
    parts I. destruct (T x) as (Ax & Cx & Xx & Yx).
    assert (NDx : NoDup (x :: l)) by (rewrite <- C; apply NC). inversion NDx as [|? ? NX NL]; subst.
    assert (KX : ts s x = FW1 c \/ ts s x = FW2 c) by (apply Cx; rewrite C; now left).
    assert (NQ : ~ In x (q s)) by (rewrite Ax; destruct KX as [E|E]; rewrite E; discriminate).
    unfold Inv, on_notify; sf. split.
    { intros Hh Hd. subst hold. cbn in G. rewrite orb_false_r in G. destruct (T t) as (_ & _ & _ & Y). rewrite (Y G) in Hd. discriminate. }
    split; [apply nodup_snoc; assumption|]. split.
    { intros c'. unfold upd. destruct (c' =? c); auto. }
    split; [|split; [exact EX|split; [rewrite FA; now rewrite app_assoc|exact HE]]].
    intros u. destruct (Nat.eq_dec u x) as [->|N].
    + unfold tok; sf. rewrite upd_same, in_snoc. split; [destruct KX as [E|E]; rewrite E; cbn; intuition|]. split.
      * intros c'. split.
        -- intros X. exfalso. unfold upd in X. destruct (Nat.eqb_spec c' c) as [E|E]; [contradiction|]. apply Cx in X. destruct KX as [F|F]; rewrite F in X; destruct X; congruence.
        -- intros X. exfalso. destruct KX as [E|E]; rewrite E in X; destruct X; discriminate.
      * split; [|exact Yx]. destruct KX as [E|E]; rewrite E in *; exact Xx.
    + apply (tok_ext s); sf; [rewrite in_snoc; intuition congruence| |now apply upd_other|reflexivity|apply T|apply T].
      intros c'. unfold upd. destruct (Nat.eqb_spec c' c) as [E|E]; [subst; rewrite C; cbn; intuition congruence|reflexivity].
Qed.
Lemma reach_inv : forall hold s, reach hold s -> Inv hold s.
Proof.
  intros hold s H. induction H; [|eapply step_inv; eauto].
  unfold Inv, init; sf. split; [auto|]. split; [constructor|]. split; [intros; constructor|]. split; [|split; [intros t u; discriminate|split; [reflexivity|discriminate]]].
  intros t. unfold tok; cbn. split; [intuition discriminate|]. split; [intuition discriminate|]. split; [exact I|discriminate].
Qed.
