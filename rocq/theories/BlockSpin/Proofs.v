From Coq Require Import List Bool Arith Lia.
From Verif.BlockSpin Require Import Spec Model.
Import ListNotations.
Ltac sf := cbn [ih q oh cq ts arr gr] in *.

Definition queued (k : tst) : bool := match k with BQ | BNQ => true | _ => false end.
Definition inner (k : tst) : bool := match k with BSpin | BStore | BUnl | BNS => true | _ => false end.
(** holds the block_spin_lock *)
Definition outer (k : tst) : bool := match k with BUnl | BHold | BW1 _ | BNQ | BNS => true | _ => false end.
Definition tok (s : st) (t : nat) : Prop :=
  (In t (q s) <-> queued (ts s t) = true) /\
  (forall c, In t (cq s c) <-> (ts s t = BW1 c \/ ts s t = BW2 c)) /\
  (inner (ts s t) = true -> ih s = true) /\ (outer (ts s t) = true -> oh s = true) /\ (ts s t = BStore -> oh s = false).
Definition Inv (s : st) : Prop :=
  NoDup (q s) /\ (forall c, NoDup (cq s c)) /\ (forall t, tok s t) /\
  exclusive (fun t => inner (ts s t)) /\ exclusive (fun t => outer (ts s t)) /\ arr s = gr s ++ q s /\
  (ih s = true -> exists t, inner (ts s t) = true) /\ (oh s = true -> exists t, outer (ts s t) = true) /\ (ih s = false -> q s = []).

Lemma upd_same : forall A (f : nat -> A) i x, upd f i x i = x.
Proof. intros. unfold upd. now rewrite Nat.eqb_refl. Qed.
Lemma upd_other : forall A (f : nat -> A) i j x, j <> i -> upd f i x j = f j.
Proof. intros A f i j x N. unfold upd. destruct (Nat.eqb_spec j i); [contradiction|reflexivity]. Qed.
Lemma in_snoc : forall (l : list nat) x t, In t (l ++ [x]) <-> In t l \/ t = x.
Proof. intros. rewrite in_app_iff. cbn. intuition. Qed.
Lemma nodup_snoc : forall (l : list nat) x, NoDup l -> ~ In x l -> NoDup (l ++ [x]).
Proof.
  induction l as [|y l IH]; intros x H N; cbn; [constructor; [intros []|constructor]|].
  inversion H; subst. constructor; [|apply IH; [assumption|]].
  - rewrite in_snoc. intros [X|X]; [contradiction|]. apply N. now left.
  - intros X. apply N. now right.
Qed.
Ltac parts H := destruct H as (ND & NC & T & EI & EO & FA & HI & HO & HQ).

(** Exclusiveness after one thread's state changes. *)
Lemma ex_upd : forall (p : tst -> bool) f t k, exclusive (fun u => p (f u)) -> (p k = true -> p (f t) = true \/ forall u, p (f u) = false) ->
  exclusive (fun u => p (upd f t k u)).
Proof.
  intros p f t k E H u v. unfold upd. destruct (Nat.eqb_spec u t) as [U|U], (Nat.eqb_spec v t) as [V|V]; try congruence; intros A B.
  - destruct (H A) as [X|X]; [subst; now apply E|rewrite X in B; discriminate].
  - destruct (H B) as [X|X]; [subst; now apply E|rewrite X in A; discriminate].
  - now apply E.
Qed.
(** Some thread satisfies p after the change. *)
Lemma some_upd : forall (p : tst -> bool) f t k, p (f t) = p k -> (exists u, p (f u) = true) -> exists u, p (upd f t k u) = true.
Proof.
  intros p f t k E [u H]. exists u. unfold upd. destruct (Nat.eqb_spec u t) as [->|]; [congruence|exact H].
Qed.
Lemma none_false : forall (p : tst -> bool) (f : nat -> tst) (b : bool), (forall t, p (f t) = true -> b = true) -> b = false -> forall t, p (f t) = false.
Proof. intros p f b H E t. destruct (p (f t)) eqn:X; [|reflexivity]. rewrite (H t X) in E. discriminate. Qed.

Lemma step_inv : forall s o s', Inv s -> step s o = Some s' -> Inv s'.
Proof.
  intros s o s' I H.
  assert (NI : ih s = false -> forall u, inner (ts s u) = false).
  { parts I. intros E. apply (none_false inner (ts s) (ih s)); [|exact E]. intros u. apply T. }
  assert (NO : oh s = false -> forall u, outer (ts s u) = false).
  { parts I. intros E. apply (none_false outer (ts s) (oh s)); [|exact E]. intros u. apply T. }
  destruct o as [t|t|t|t c|t|t c]; cbn [step] in H.
  - destruct (ts s t) eqn:K; try discriminate. inversion H; subst; clear H. parts I. destruct (T t) as (At & Ct & It & Ot & St). rewrite K in *.
    unfold inner_lock. destruct (ih s) eqn:EI'.
    + unfold Inv; sf. split; [apply nodup_snoc; [exact ND|rewrite At; discriminate]|]. split; [exact NC|]. split.
      { intros u. destruct (T u) as (A & C & X & Y & Z). unfold tok; sf. rewrite in_snoc. unfold upd. destruct (Nat.eqb_spec u t) as [->|N].
        - cbn. split; [intuition|]. split; [intros c; rewrite Ct; intuition discriminate|]. intuition discriminate.
        - split; [rewrite <- A; intuition congruence|]. auto. }
      split; [apply ex_upd; [exact EI|discriminate]|]. split; [apply ex_upd; [exact EO|discriminate]|]. split; [rewrite FA; now rewrite app_assoc|].
      split; [intros _; apply some_upd; [now rewrite K|auto]|]. split; [intros E; apply some_upd; [now rewrite K|auto]|discriminate].
    + unfold Inv; sf. split; [exact ND|]. split; [exact NC|]. split.
      { intros u. destruct (T u) as (A & C & X & Y & Z). unfold tok; sf. unfold upd. destruct (Nat.eqb_spec u t) as [->|N]; [|auto].
        cbn. split; [exact At|]. split; [intros c; rewrite Ct; intuition discriminate|]. intuition discriminate. }
      split; [apply ex_upd; [exact EI|auto]|]. split; [apply ex_upd; [exact EO|discriminate]|]. split; [exact FA|].
      split; [intros _; exists t; now rewrite upd_same|]. split; [intros E; apply some_upd; [now rewrite K|auto]|discriminate].
  - destruct (ts s t) eqn:K; try discriminate; inversion H; subst; clear H.
    + (* BSpin *) destruct (oh s) eqn:EO'; [exact I|]. parts I. destruct (T t) as (At & Ct & It & Ot & St). rewrite K in *.
      unfold Inv, setk; sf. split; [exact ND|]. split; [exact NC|]. split.
      { intros u. destruct (T u) as (A & C & X & Y & Z). unfold tok; sf. unfold upd. destruct (Nat.eqb_spec u t) as [->|N]; [|rewrite EO' in *; auto].
        cbn. split; [exact At|]. split; [intros c; rewrite Ct; intuition discriminate|]. intuition discriminate. }
      split; [apply ex_upd; [exact EI|rewrite K; auto]|]. split; [apply ex_upd; [exact EO|discriminate]|]. split; [exact FA|].
      split; [intros E; apply some_upd; [now rewrite K|auto]|]. split; [rewrite EO'; discriminate|auto].
    + (* BStore *) parts I. destruct (T t) as (At & Ct & It & Ot & St). rewrite K in *.
      assert (EO' : oh s = false) by auto.
      assert (US : forall u, u <> t -> ts s u <> BStore). { intros u N E. apply N. apply EI; [rewrite E|rewrite K]; reflexivity. }
      unfold Inv, seth; sf. split; [exact ND|]. split; [exact NC|]. split.
      { intros u. destruct (T u) as (A & C & X & Y & Z). unfold tok; sf. unfold upd. destruct (Nat.eqb_spec u t) as [->|N].
        - cbn. split; [exact At|]. split; [intros c; rewrite Ct; intuition discriminate|]. intuition discriminate.
        - repeat (split; [assumption|]). split; [auto|]. intros E. destruct (US u N E). }
      split; [apply ex_upd; [exact EI|rewrite K; auto]|]. split; [apply ex_upd; [exact EO|intros _; right; auto]|]. split; [exact FA|].
      split; [intros E; apply some_upd; [now rewrite K|auto]|]. split; [intros _; exists t; now rewrite upd_same|auto].
    + (* BUnl *) parts I. destruct (T t) as (At & Ct & It & Ot & St). rewrite K in *.
      assert (UI : forall u, u <> t -> inner (ts s u) = false).
      { intros u N. destruct (inner (ts s u)) eqn:E; [|reflexivity]. destruct N. apply EI; [exact E|now rewrite K]. }
      assert (EO' : oh s = true) by auto.
      unfold inner_unlock, setk; sf. destruct (q s) as [|x l] eqn:Q.
      * unfold Inv; sf. split; [constructor|]. split; [exact NC|]. split.
        { intros u. destruct (T u) as (A & C & X & Y & Z). unfold tok; sf. rewrite Q in *. unfold upd. destruct (Nat.eqb_spec u t) as [->|N].
          - cbn. split; [exact At|]. split; [intros c; rewrite Ct; intuition discriminate|]. intuition discriminate.
          - split; [exact A|]. split; [exact C|]. split; [rewrite (UI u N); discriminate|]. auto. }
        split; [apply ex_upd; [exact EI|discriminate]|]. split; [apply ex_upd; [exact EO|rewrite K; auto]|]. split; [exact FA|].
        split; [discriminate|]. split; [intros E; apply some_upd; [now rewrite K|auto]|auto].
      * inversion ND as [|? ? NX ND']; subst.
        assert (QX : queued (ts s x) = true) by (apply T; rewrite Q; now left).
        assert (XT : x <> t) by (intros ->; rewrite K in QX; discriminate).
        rewrite !(upd_other _ _ t x) by exact XT.
        set (k := match ts s x with BNQ => BNS | _ => BSpin end).
        assert (KX : inner k = true /\ outer k = outer (ts s x) /\ queued k = false /\ (forall c, k <> BW1 c /\ k <> BW2 c) /\ k <> BStore /\ forall c, ts s x <> BW1 c /\ ts s x <> BW2 c).
        { subst k. destruct (ts s x); try discriminate QX; cbn; repeat split; discriminate. }
        destruct KX as (K1 & K2 & K3 & K4 & K5 & K6).
        unfold Inv; sf. split; [exact ND'|]. split; [exact NC|]. split.
        { intros u. destruct (T u) as (A & C & X & Y & Z). unfold tok; sf. rewrite Q in *. destruct (Nat.eq_dec u x) as [->|NU].
          - rewrite !upd_same. rewrite K3. split; [split; [intros F; contradiction|discriminate]|].
            split; [intros c; rewrite C; destruct (K4 c), (K6 c); tauto|]. split; [auto|]. split; [rewrite K2; exact Y|contradiction].
          - rewrite !(upd_other _ _ x u) by exact NU. unfold upd. destruct (Nat.eqb_spec u t) as [->|N].
            + cbn. split; [rewrite <- At; cbn; intuition congruence|]. split; [intros c; rewrite Ct; intuition discriminate|]. intuition discriminate.
            + split; [rewrite <- A; cbn; intuition congruence|]. split; [exact C|]. split; [rewrite (UI u N); discriminate|]. auto. }
        split.
        { apply ex_upd; [apply ex_upd; [exact EI|discriminate]|]. intros _. right. intros u. unfold upd. destruct (Nat.eqb_spec u t) as [->|N]; [reflexivity|auto]. }
        split.
        { apply ex_upd; [apply ex_upd; [exact EO|rewrite K; auto]|]. rewrite upd_other by exact XT. rewrite K2. auto. }
        split; [rewrite FA, <- app_assoc; reflexivity|]. split; [intros _; exists x; now rewrite upd_same|].
        split; [|discriminate]. intros _. exists t. rewrite upd_other by auto. now rewrite upd_same.
  - destruct (ts s t) eqn:K; try discriminate; inversion H; subst; clear H. parts I. destruct (T t) as (At & Ct & It & Ot & St). rewrite K in *.
    assert (UO : forall u, u <> t -> outer (ts s u) = false).
    { intros u N. destruct (outer (ts s u)) eqn:E; [|reflexivity]. destruct N. apply EO; [exact E|now rewrite K]. }
    unfold Inv, seth; sf. split; [exact ND|]. split; [exact NC|]. split.
    { intros u. destruct (T u) as (A & C & X & Y & Z). unfold tok; sf. unfold upd. destruct (Nat.eqb_spec u t) as [->|N].
      - cbn. split; [exact At|]. split; [intros c; rewrite Ct; intuition discriminate|]. intuition discriminate.
      - repeat (split; [assumption|]). split; [rewrite (UO u N); discriminate|auto]. }
    split; [apply ex_upd; [exact EI|discriminate]|]. split; [apply ex_upd; [exact EO|discriminate]|]. split; [exact FA|].
    split; [intros E; apply some_upd; [now rewrite K|auto]|]. split; [discriminate|auto].
  - destruct (ts s t) eqn:K; try discriminate; inversion H; subst; clear H. parts I. destruct (T t) as (At & Ct & It & Ot & St). rewrite K in *.
    assert (NIc : forall c', ~ In t (cq s c')) by (intros c' X; apply Ct in X; destruct X; discriminate).
    unfold Inv; sf. split; [exact ND|]. split.
    { intros c'. unfold upd. destruct (c' =? c) eqn:E; [|apply NC]. apply Nat.eqb_eq in E. subst. apply nodup_snoc; auto. }
    split.
    { intros u. destruct (T u) as (A & C & X & Y & Z). unfold tok; sf. destruct (Nat.eq_dec u t) as [->|N].
      - rewrite upd_same. cbn. split; [exact At|]. split; [|split; [discriminate|split; [auto|discriminate]]].
        intros c'. unfold upd. destruct (Nat.eqb_spec c' c) as [E|E]; [subst; rewrite in_snoc; intuition|].
        split; [intros F; destruct (NIc _ F)|intros [F|F]; congruence].
      - rewrite upd_other by exact N. split; [exact A|]. split; [|auto].
        intros c'. rewrite <- C. unfold upd. destruct (Nat.eqb_spec c' c) as [E|E]; [subst; rewrite in_snoc; intuition congruence|reflexivity]. }
    split; [apply ex_upd; [exact EI|discriminate]|]. split; [apply ex_upd; [exact EO|rewrite K; auto]|]. split; [exact FA|].
    split; [intros E; apply some_upd; [now rewrite K|auto]|]. split; [intros E; apply some_upd; [now rewrite K|auto]|auto].
  - assert (X : exists k, s' = seth s false t k /\ outer (ts s t) = true /\ outer k = false /\ inner k = inner (ts s t) /\ queued k = queued (ts s t) /\ k <> BStore /\
      forall c, (k = BW1 c \/ k = BW2 c) <-> (ts s t = BW1 c \/ ts s t = BW2 c)).
    { destruct (ts s t); try discriminate H; inversion H; subst; eexists; (split; [reflexivity|]); repeat (split; [reflexivity|]); (split; [discriminate|]);
        intros c'; intuition (try discriminate); left + right; congruence. }
    destruct X as (k & -> & K1 & K2 & K3 & K4 & K5 & K6). clear H. parts I. destruct (T t) as (At & Ct & It & Ot & St).
    assert (UO : forall u, u <> t -> outer (ts s u) = false).
    { intros u N. destruct (outer (ts s u)) eqn:E; [|reflexivity]. destruct N. apply EO; [exact E|exact K1]. }
    unfold Inv, seth; sf. split; [exact ND|]. split; [exact NC|]. split.
    { intros u. destruct (T u) as (A & C & X & Y & Z). unfold tok; sf. unfold upd. destruct (Nat.eqb_spec u t) as [->|N].
      - rewrite K4. split; [exact A|]. split; [intros c; rewrite C; symmetry; apply K6|]. rewrite K2, K3. split; [exact X|]. split; [discriminate|contradiction].
      - repeat (split; [assumption|]). split; [rewrite (UO u N); discriminate|auto]. }
    split; [apply ex_upd; [exact EI|rewrite K3; auto]|]. split; [apply ex_upd; [exact EO|rewrite K2; discriminate]|]. split; [exact FA|].
    split; [intros E; apply some_upd; [congruence|auto]|]. split; [discriminate|auto].
  - destruct (may_notify (ts s t)) eqn:MN; [|discriminate]. destruct (cq s c) as [|x l] eqn:C; inversion H; subst; [exact I|]. clear H.
    parts I. destruct (T x) as (Ax & Cx & Ix & Ox & Sx).
    assert (NDx : NoDup (x :: l)) by (rewrite <- C; apply NC). inversion NDx as [|? ? NX NL]; subst.
    assert (KX : ts s x = BW1 c \/ ts s x = BW2 c) by (apply Cx; rewrite C; now left).
    assert (NQ : ~ In x (q s)) by (rewrite Ax; destruct KX as [E|E]; rewrite E; discriminate).
    assert (IX : inner (ts s x) = false) by (destruct KX as [E|E]; rewrite E; reflexivity).
    assert (CC : forall u c', u <> x -> In u (upd (cq s) c l c') <-> In u (cq s c')).
    { intros u c' N. unfold upd. destruct (Nat.eqb_spec c' c) as [E|E]; [subst; rewrite C; cbn; intuition congruence|reflexivity]. }
    assert (CX : forall c', ~ In x (upd (cq s) c l c')).
    { intros c' F. unfold upd in F. destruct (Nat.eqb_spec c' c) as [E|E]; [contradiction|]. apply Cx in F. destruct KX as [G|G]; rewrite G in F; destruct F; congruence. }
    assert (NC' : forall c', NoDup (upd (cq s) c l c')) by (intros c'; unfold upd; destruct (c' =? c); auto).
    unfold on_notify; sf. destruct (ih s) eqn:EI'.
    + set (k := match ts s x with BW1 _ => BNQ | _ => BQ end).
      assert (K : queued k = true /\ inner k = false /\ outer k = outer (ts s x) /\ k <> BStore /\ forall c', k <> BW1 c' /\ k <> BW2 c') by
        (subst k; destruct KX as [E|E]; rewrite E; cbn; repeat split; discriminate).
      destruct K as (K1 & K2 & K3 & K4 & K5).
      unfold Inv; sf. split; [apply nodup_snoc; assumption|]. split; [exact NC'|]. split.
      { intros u. destruct (T u) as (A & Cu & X & Y & Z). unfold tok; sf. rewrite in_snoc. destruct (Nat.eq_dec u x) as [->|N].
        - rewrite upd_same, K1, K2, K3. split; [tauto|]. split; [intros c'; destruct (K5 c'); specialize (CX c'); tauto|]. split; [discriminate|]. split; [auto|contradiction].
        - rewrite upd_other by exact N. split; [rewrite <- A; tauto|]. split; [intros c'; rewrite CC by exact N; apply Cu|auto]. }
      split; [apply ex_upd; [exact EI|rewrite K2; discriminate]|]. split; [apply ex_upd; [exact EO|rewrite K3; auto]|]. split; [rewrite FA; now rewrite app_assoc|].
      split; [intros _; apply some_upd; [congruence|auto]|]. split; [intros E; apply some_upd; [congruence|auto]|discriminate].
    + set (k := match ts s x with BW1 _ => BNS | _ => BSpin end).
      assert (K : queued k = false /\ inner k = true /\ outer k = outer (ts s x) /\ k <> BStore /\ forall c', k <> BW1 c' /\ k <> BW2 c') by
        (subst k; destruct KX as [E|E]; rewrite E; cbn; repeat split; discriminate).
      destruct K as (K1 & K2 & K3 & K4 & K5).
      unfold Inv; sf. split; [exact ND|]. split; [exact NC'|]. split.
      { intros u. destruct (T u) as (A & Cu & X & Y & Z). unfold tok; sf. destruct (Nat.eq_dec u x) as [->|N].
        - rewrite upd_same, K1, K2, K3. split; [split; [contradiction|discriminate]|]. split; [intros c'; destruct (K5 c'); specialize (CX c'); tauto|]. split; [auto|]. split; [auto|contradiction].
        - rewrite upd_other by exact N. split; [exact A|]. split; [intros c'; rewrite CC by exact N; apply Cu|auto]. }
      split; [apply ex_upd; [exact EI|right; auto]|]. split; [apply ex_upd; [exact EO|rewrite K3; auto]|]. split; [exact FA|].
      split; [intros _; exists x; now rewrite upd_same|]. split; [intros E; apply some_upd; [congruence|auto]|discriminate].
Qed.
Lemma reach_inv : forall s, reach s -> Inv s.
Proof.
  intros s H. induction H; [|eapply step_inv; eauto].
  unfold Inv, init; sf. split; [constructor|]. split; [intros; constructor|]. split.
  - intros t. unfold tok; cbn. intuition discriminate.
  - split; [intros t u; discriminate|]. split; [intros t u; discriminate|]. split; [reflexivity|]. split; [discriminate|]. split; [discriminate|reflexivity].
Qed.
