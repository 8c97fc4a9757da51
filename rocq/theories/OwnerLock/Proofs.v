From Coq Require Import List Bool Arith Lia.
From Verif.OwnerLock Require Import Spec Model.
Import ListNotations.

Definition queued (k : tst) : bool := match k with TLock | TWQ _ _ => true | _ => false end.
(** what each thread's state says, given the owner *)
Definition tok (s : st) (t : nat) : Prop :=
  (In t (q s) <-> queued (ts s t) = true) /\
  (forall c, In t (cq s c) <-> (ts s t = TW1 c \/ exists r, ts s t = TW2 c r)) /\
  match ts s t with
  | TRun => d s t = (if is_owner s t then rc s else 0)
  | TW1 _ => is_owner s t = true /\ d s t = rc s
  | TWake r _ => is_owner s t = true /\ rc s = 1 /\ d s t = 0 /\ 0 < r
  | TLock => is_owner s t = false /\ d s t = 0
  | TW2 _ r => is_owner s t = false /\ d s t = 0 /\ 0 < r
  | TWQ r _ => is_owner s t = false /\ d s t = 0 /\ 0 < r
  end.
Definition pend (k : tst) (t : nat) : list (nat * bool) := match k with TWQ _ b | TWake _ b => [(t, b)] | _ => [] end.
Definition of (t : nat) (l : list (nat * bool)) : list (nat * bool) := filter (fun x => fst x =? t) l.
Definition Inv (s : st) : Prop :=
  match owner s with Some o => 0 < rc s | None => rc s = 0 /\ q s = [] end /\
  NoDup (q s) /\ wc s = length (q s) /\ (forall c, NoDup (cq s c)) /\ (forall t, tok s t) /\ arr s = gr s ++ q s /\
  (forall t, of t (nots s) = of t (rets s) ++ pend (ts s t) t) /\ bad s = false.

Lemma upd_same : forall A (f : nat -> A) i x, upd f i x i = x.
Proof. intros. unfold upd. now rewrite Nat.eqb_refl. Qed.
Lemma upd_other : forall A (f : nat -> A) i j x, j <> i -> upd f i x j = f j.
Proof. intros A f i j x N. unfold upd. destruct (Nat.eqb_spec j i); [contradiction|reflexivity]. Qed.
Ltac sf := cbn [owner rc q wc cq ts bad d arr gr nots rets set_lock set_cq] in *.

Lemma in_snoc : forall (l : list nat) x t, In t (l ++ [x]) <-> In t l \/ t = x.
Proof. intros. rewrite in_app_iff. cbn. intuition. Qed.
Lemma nodup_snoc : forall (l : list nat) x, NoDup l -> ~ In x l -> NoDup (l ++ [x]).
Proof.
  induction l as [|y l IH]; intros x H N; cbn; [constructor; [intros []|constructor]|].
  inversion H; subst. constructor; [|apply IH; [assumption|]].
  - rewrite in_snoc. intros [X|X]; [contradiction|]. apply N. now left.
  - intros X. apply N. now right.
Qed.
Lemma is_owner_some : forall s o t, owner s = Some o -> is_owner s t = (o =? t).
Proof. intros s o t H. unfold is_owner. now rewrite H. Qed.
Lemma is_owner_true : forall s t, is_owner s t = true -> owner s = Some t.
Proof. intros s t H. unfold is_owner in H. destruct (owner s); [|discriminate]. apply Nat.eqb_eq in H. now subst. Qed.

(** Lock hand-over: state in which the owner has given up its count; the queue's first becomes owner. *)
Definition Pre (s : st) : Prop := (* like Inv but with the owner's own count removed and no owner conditions *)
  NoDup (q s) /\ wc s = length (q s) /\ (forall c, NoDup (cq s c)) /\ arr s = gr s ++ q s /\
  (forall t, of t (nots s) = of t (rets s) ++ pend (ts s t) t) /\ bad s = false.
(** per-thread conditions when nobody holds the lock *)
Definition tokN (s : st) (t : nat) : Prop :=
  (In t (q s) <-> queued (ts s t) = true) /\
  (forall c, In t (cq s c) <-> (ts s t = TW1 c \/ exists r, ts s t = TW2 c r)) /\ d s t = 0 /\
  match ts s t with TRun | TLock => True | TW2 _ r | TWQ r _ => 0 < r | _ => False end.

Lemma pop_inv : forall s, Pre s -> (forall t, tokN s t) -> Inv (pop_node s).
Proof.
  intros s (ND & WC & NC & FA & FN & B) T. unfold pop_node. destruct (q s) as [|x l] eqn:Q.
  - unfold Inv; sf. split; [auto|]. split; [constructor|]. split; [rewrite WC; reflexivity|]. split; [exact NC|]. split; [|split; [exact FA|split; [exact FN|exact B]]].
    intros t. destruct (T t) as (A & C & D & E). unfold tok, is_owner; sf. rewrite Q in A. split; [exact A|]. split; [exact C|].
    destruct (ts s t); cbn in *; auto; try contradiction.
  - inversion ND as [|? ? NX ND']; subst.
    assert (QX : queued (ts s x) = true) by (apply T; rewrite Q; now left).
    set (kd := match ts s x with TWQ r b => (TWake r b, d s x) | _ => (TRun, 1) end). destruct kd as [k dx] eqn:K.
    unfold Inv; sf. split; [lia|]. split; [exact ND'|]. split; [rewrite WC; reflexivity|]. split; [exact NC|].
    split; [|split; [rewrite FA, <- app_assoc; reflexivity|split; [|exact B]]].
    + intros t. destruct (T t) as (A & C & D & E). unfold tok, is_owner; sf. rewrite Q in A.
      destruct (Nat.eq_dec t x) as [->|N].
      * rewrite !upd_same, Nat.eqb_refl. subst kd. destruct (ts s x); try discriminate QX; inversion K; subst; clear K; cbn.
        -- split; [split; [intros H; contradiction|discriminate]|]. split; [|reflexivity].
           intros c. rewrite C. split; intros [H|[r H]]; discriminate.
        -- split; [split; [intros H; contradiction|discriminate]|]. split; [|auto].
           intros c. rewrite C. split; intros [H|[r' H]]; discriminate.
      * rewrite !upd_other by exact N. assert (X : x =? t = false) by (apply Nat.eqb_neq; congruence). rewrite X.
        split; [rewrite <- A; cbn; intuition congruence|]. split; [exact C|].
        destruct (ts s t); cbn in *; auto; contradiction.
    + intros t. destruct (Nat.eq_dec t x) as [->|N]; [|now rewrite upd_other by exact N].
      rewrite upd_same, FN. f_equal. subst kd. destruct (ts s x); try discriminate QX; inversion K; reflexivity.
Qed.

(** Weak form used for every step: split the invariant into its parts. *)
Lemma tok_tokN : forall s s0 o, owner s = Some o -> (forall t, tok s t) -> ts s o = TRun \/ (exists c, ts s o = TW1 c) ->
  q s0 = q s -> (forall c, cq s0 c = cq s c) -> (forall t, t <> o -> ts s0 t = ts s t /\ d s0 t = d s t) ->
  d s0 o = 0 -> ts s0 o = TRun -> (forall c, ~ In o (cq s c)) -> forall t, tokN s0 t.
Proof.
  intros s s0 o O T K EQ EC E D TO NC t. destruct (T t) as (A & C & X). unfold tokN. rewrite EQ. 
  destruct (Nat.eq_dec t o) as [->|N].
  - rewrite TO, D. split; [|split; [|auto]].
    + rewrite A. destruct K as [->|[c ->]]; cbn; intuition.
    + intros c. rewrite EC. split; [intros H; destruct (NC c H)|]. intros [H|[r H]]; discriminate.
  - destruct (E t N) as [E1 E2]. rewrite E1, E2. split; [exact A|]. split; [intros c; rewrite EC; apply C|].
    rewrite (is_owner_some _ _ t O) in X. assert (Y : o =? t = false) by (apply Nat.eqb_neq; congruence). rewrite Y in X.
    destruct (ts s t); intuition (auto; discriminate).
Qed.

Lemma tok_ext : forall s s' t, (In t (q s') <-> In t (q s)) -> (forall c, In t (cq s' c) <-> In t (cq s c)) -> ts s' t = ts s t -> d s' t = d s t ->
  is_owner s' t = is_owner s t -> (is_owner s t = true -> rc s' = rc s) -> tok s t -> tok s' t.
Proof.
  intros s s' t Q C K D O R (A & B & X). unfold tok. rewrite K, D, O. split; [now rewrite Q|]. split; [intros c; rewrite C; apply B|].
  destruct (ts s t); intuition (try lia); try congruence.
  all: destruct (is_owner s t); intuition congruence.
Qed.

Lemma own_free : forall s t, Inv s -> owner s = None -> d s t = 0.
Proof.
  intros s t (_ & _ & _ & _ & T & _) O. destruct (T t) as (_ & _ & X). unfold is_owner in X. rewrite O in X. destruct (ts s t); intuition discriminate.
Qed.

Ltac parts H := destruct H as (IO & ND & WC & NC & T & FA & FN & B).

Lemma acquire_inv : forall s t, Inv s -> ts s t = TRun -> owner s = None ->
  Inv (set_lock s (Some t) 1 (q s) (wc s) (ts s) (upd (d s) t 1) (arr s) (gr s)).
Proof.
  intros s t I K O. parts I. rewrite O in IO. destruct IO as [RC Q].
  unfold Inv; sf. split; [lia|]. split; [exact ND|]. split; [exact WC|]. split; [exact NC|]. split; [|auto].
  intros u. destruct (T u) as (A & C & X). unfold tok, is_owner in *; sf. rewrite O in X. split; [exact A|]. split; [exact C|].
  destruct (Nat.eq_dec u t) as [->|N].
  - now rewrite K, upd_same, Nat.eqb_refl.
  - rewrite upd_other by exact N. assert (Y : t =? u = false) by (apply Nat.eqb_neq; congruence). rewrite Y.
    destruct (ts s u); intuition discriminate.
Qed.
Lemma again_inv : forall s t, Inv s -> ts s t = TRun -> owner s = Some t ->
  Inv (set_lock s (owner s) (S (rc s)) (q s) (wc s) (ts s) (upd (d s) t (S (d s t))) (arr s) (gr s)).
Proof.
  intros s t I K O. parts I. rewrite O in IO.
  unfold Inv; sf. rewrite O. split; [lia|]. split; [exact ND|]. split; [exact WC|]. split; [exact NC|]. split; [|auto].
  intros u. destruct (T u) as (A & C & X). unfold tok, is_owner in *; sf. rewrite O in X. split; [exact A|]. split; [exact C|].
  destruct (Nat.eq_dec u t) as [->|N].
  - rewrite K in *. rewrite upd_same. rewrite Nat.eqb_refl in *. now rewrite X.
  - rewrite upd_other by exact N. assert (Y : t =? u = false) by (apply Nat.eqb_neq; congruence). rewrite Y in *.
    destruct (ts s u); intuition discriminate.
Qed.
(** A thread whose state becomes "queued" (blocked in lock, or moved from a condition). *)
Lemma lock_inv : forall multi s t, Inv s -> ts s t = TRun -> multi || negb (is_owner s t) = true -> Inv (lock multi s t).
Proof.
  intros multi s t I K M. unfold lock. destruct (owner s) as [o|] eqn:O; [|apply acquire_inv; assumption].
  destruct (Nat.eqb_spec o t) as [E|N].
  - subst o. rewrite (is_owner_some _ _ _ O), Nat.eqb_refl in M. destruct multi; [|discriminate].
    pose proof (again_inv s t I K O) as H. rewrite O in H. exact H.
  - parts I. rewrite O in IO. destruct (T t) as (At & Ct & Xt). rewrite K in *.
    unfold Inv; sf. split; [exact IO|]. split; [apply nodup_snoc; [exact ND|rewrite At; discriminate]|].
    split; [rewrite app_length; cbn; lia|]. split; [exact NC|]. split; [|split; [|split; [|exact B]]].
    + intros u. destruct (Nat.eq_dec u t) as [->|NU].
      * unfold tok, is_owner in *; sf. rewrite O in *. rewrite upd_same. rewrite in_snoc. assert (Y : o =? t = false) by (apply Nat.eqb_neq; congruence). rewrite Y in *.
        split; [cbn; intuition|]. split; [|auto]. intros c. rewrite Ct. split; intros [H|[r H]]; discriminate.
      * apply (tok_ext s); unfold is_owner; sf; [rewrite in_snoc; intuition congruence|reflexivity|now apply upd_other|reflexivity|now rewrite O|reflexivity|apply T].
    + rewrite FA. now rewrite app_assoc.
    + intros u. rewrite FN. f_equal. destruct (Nat.eq_dec u t) as [->|NU]; [rewrite upd_same, K; reflexivity|now rewrite upd_other].
Qed.
Lemma try_inv : forall multi s t, Inv s -> ts s t = TRun -> Inv (fst (try_lock multi s t)).
Proof.
  intros multi s t I K. unfold try_lock. destruct (owner s) as [o|] eqn:O; [|apply acquire_inv; assumption].
  destruct (Nat.eqb_spec o t) as [E|N]; [|exact I]. subst o. destruct multi; [|exact I].
  pose proof (again_inv s t I K O) as H. rewrite O in H. exact H.
Qed.

Lemma unlock_inv : forall s t, Inv s -> ts s t = TRun -> owner s = Some t -> Inv (unlock s t).
Proof.
  intros s t I K O. pose proof I as I0. parts I. rewrite O in IO. unfold unlock; sf.
  assert (Dt : d s t = rc s) by (destruct (T t) as (_ & _ & X); rewrite K, (is_owner_some _ _ _ O), Nat.eqb_refl in X; exact X).
  assert (Ct : forall c, ~ In t (cq s c)) by (intros c H; apply (proj1 (proj2 (T t))) in H; rewrite K in H; destruct H as [H|[r H]]; discriminate).
  destruct (Nat.eqb_spec (pred (rc s)) 0) as [E|N].
  - apply pop_inv.
    + unfold Pre; sf. auto 10.
    + apply (tok_tokN s _ t O T (or_introl K)); sf; auto.
      * intros u NU. split; [reflexivity|now rewrite upd_other].
      * rewrite upd_same. lia.
  - unfold Inv; sf. rewrite O. split; [lia|]. split; [exact ND|]. split; [exact WC|]. split; [exact NC|]. split; [|auto].
    intros u. destruct (T u) as (A & C & X). unfold tok, is_owner in *; sf. rewrite O in X. split; [exact A|]. split; [exact C|].
    destruct (Nat.eq_dec u t) as [->|NU].
    + rewrite K in *. rewrite ?O, upd_same, Nat.eqb_refl in *. now rewrite X.
    + rewrite ?O, upd_other by exact NU. assert (Y : t =? u = false) by (apply Nat.eqb_neq; congruence). rewrite Y in *.
      destruct (ts s u); intuition discriminate.
Qed.

Lemma on_notify_inv : forall s x b c r, (forall c', cq s c' = cq s c') -> NoDup (q s) -> wc s = length (q s) -> (forall c', NoDup (cq s c')) ->
  match owner s with Some o => 0 < rc s | None => rc s = 0 /\ q s = [] end ->
  (forall t, t <> x -> tok s t) -> ts s x = TW2 c r -> 0 < r -> ~ In x (q s) -> (forall c', ~ In x (cq s c')) -> is_owner s x = false -> d s x = 0 ->
  arr s = gr s ++ q s -> (forall t, of t (nots s) = of t (rets s) ++ pend (ts s t) t) -> bad s = false ->
  Inv (on_notify s x b).
Proof.
  intros s x b c r _ ND WC NC IO T K R NQ NCx OX DX FA FN B. unfold on_notify. rewrite K.
  assert (FN' : forall k, (k = TWQ r b \/ k = TWake r b) -> forall t, of t (nots s ++ [(x, b)]) = of t (rets s) ++ pend (upd (ts s) x k t) t).
  { intros k Hk t. unfold of at 1. rewrite filter_app. fold (of t (nots s)). rewrite FN. cbn. destruct (Nat.eqb_spec x t) as [->|N].
    - rewrite upd_same, K. cbn. rewrite app_nil_r. destruct Hk; subst; reflexivity.
    - rewrite upd_other by congruence. now rewrite app_nil_r. }
  destruct (owner s) as [o|] eqn:O.
  - unfold Inv; sf. split; [exact IO|]. split; [apply nodup_snoc; assumption|]. split; [rewrite app_length; cbn; lia|]. split; [exact NC|].
    split; [|split; [rewrite FA; now rewrite app_assoc|split; [apply FN'; auto|exact B]]].
    intros u. destruct (Nat.eq_dec u x) as [->|NU].
    + unfold tok, is_owner in *; sf. rewrite O in OX. rewrite upd_same, in_snoc, OX. cbn. split; [intuition|]. split; [|auto].
      intros c'. split; [intros H; destruct (NCx _ H)|intros [H|[r' H]]; discriminate].
    + apply (tok_ext s); unfold is_owner; sf; [rewrite in_snoc; intuition congruence|reflexivity|now apply upd_other|reflexivity|now rewrite O|reflexivity|now apply T].
  - destruct IO as [RC Q]. unfold Inv; sf. split; [lia|]. split; [exact ND|]. split; [exact WC|]. split; [exact NC|].
    split; [|split; [exact FA|split; [apply FN'; auto|exact B]]].
    intros u. destruct (Nat.eq_dec u x) as [->|NU].
    + unfold tok, is_owner; sf. rewrite upd_same, Nat.eqb_refl. cbn. split; [split; [intros H; contradiction|discriminate]|]. split; [|auto].
      intros c'. split; [intros H; destruct (NCx _ H)|intros [H|[r' H]]; discriminate].
    + destruct (T u NU) as (A & C & X). unfold tok, is_owner in *; sf. rewrite O in X. rewrite upd_other by exact NU. split; [exact A|]. split; [exact C|].
      assert (Y : x =? u = false) by (apply Nat.eqb_neq; congruence). rewrite Y. destruct (ts s u); intuition discriminate.
Qed.

(** Removing x from the queue of condition c and notifying it. *)
Lemma remove_notify_inv : forall s c x l b, Inv s -> In x (cq s c) -> NoDup l -> ~ In x l -> (forall t, t <> x -> In t l <-> In t (cq s c)) ->
  (forall c', ts s x <> TW1 c') -> Inv (on_notify (set_cq s c l) x b).
Proof.
  intros s c x l b I H NL NX E NW. parts I. destruct (T x) as (A & C & X).
  destruct (proj1 (C c) H) as [K|[r K]]; [destruct (NW c K)|]. rewrite K in X. destruct X as (OX & DX & R).
  apply on_notify_inv with (c := c) (r := r); sf; auto.
  - intros c'. unfold upd. destruct (c' =? c); auto.
  - intros t N. apply (tok_ext s); unfold is_owner; sf; try reflexivity; [|apply T].
    intros c'. unfold upd. destruct (Nat.eqb_spec c' c) as [->|]; [now apply E|reflexivity].
  - rewrite A, K. discriminate.
  - intros c' H'. unfold upd in H'. destruct (Nat.eqb_spec c' c) as [E0|N]; [auto|].
    apply C in H'. rewrite K in H'. destruct H' as [H'|[r' H']]; congruence.
Qed.

Lemma on_notify_cq : forall s x b, cq (on_notify s x b) = cq s.
Proof. intros. unfold on_notify. destruct (ts s x); try reflexivity. destruct (owner s); reflexivity. Qed.
Lemma on_notify_owner : forall s x b o, owner s = Some o -> ts s x <> ts s o -> owner (on_notify s x b) = Some o /\ ts (on_notify s x b) o = ts s o.
Proof.
  intros s x b o O N. unfold on_notify. assert (x <> o) by congruence. destruct (ts s x); try (split; [exact O|reflexivity]).
  rewrite O. sf. rewrite upd_other by auto. auto.
Qed.
Lemma no_tw1 : forall s t, Inv s -> owner s = Some t -> ts s t = TRun -> forall x c, ts s x <> TW1 c.
Proof.
  intros s t I O K x c H. parts I. destruct (T x) as (_ & _ & X). rewrite H in X. destruct X as [X _]. apply is_owner_true in X. congruence.
Qed.

Lemma notify_list_inv : forall l s c t, Inv s -> owner s = Some t -> ts s t = TRun -> cq s c = l -> Inv (notify_list s c l).
Proof.
  induction l as [|x l IH]; intros s c t I O K E; [exact I|]. cbn [notify_list].
  assert (NDx : NoDup (x :: l)) by (rewrite <- E; parts I; apply NC). inversion NDx; subst.
  assert (HX : In x (cq s c)) by (rewrite E; now left).
  assert (KX : ts s x <> ts s t).
  { parts I. destruct (T x) as (_ & C & _). apply C in HX. rewrite K. destruct HX as [HX|[r HX]]; rewrite HX; discriminate. }
  apply IH with (t := t).
  - apply remove_notify_inv; auto.
    + intros u N. rewrite E. cbn. intuition congruence.
    + apply (no_tw1 _ _ I O K).
  - apply on_notify_owner; sf; assumption.
  - rewrite (proj2 (on_notify_owner (set_cq s c l) x true t O KX)). exact K.
  - rewrite on_notify_cq. sf. apply upd_same.
Qed.

Lemma wait1_inv : forall s t c, Inv s -> ts s t = TRun -> owner s = Some t -> Inv (wait1 s t c).
Proof.
  intros s t c I K O. parts I. rewrite O in IO. destruct (T t) as (At & Ct & Xt). rewrite K in *.
  unfold Inv, wait1; sf. rewrite O. split; [exact IO|]. split; [exact ND|]. split; [exact WC|].
  assert (NI : forall c', ~ In t (cq s c')) by (intros c' H; apply Ct in H; destruct H as [H|[r H]]; discriminate).
  split.
  { intros c'. unfold upd. destruct (Nat.eqb_spec c' c); [apply nodup_snoc|]; auto. }
  split; [|split; [exact FA|split; [|exact B]]].
  - intros u. destruct (Nat.eq_dec u t) as [->|N].
    + unfold tok, is_owner in *; sf. rewrite O, Nat.eqb_refl in *. rewrite upd_same. cbn in *. split; [exact At|]. split; [|auto].
      intros c'. unfold upd. destruct (Nat.eqb_spec c' c) as [->|NC'].
      * rewrite in_snoc. intuition.
      * split; [intros H; destruct (NI _ H)|intros [H|[r H]]; congruence].
    + apply (tok_ext s); unfold is_owner; sf; try reflexivity; try (now rewrite O); [|now apply upd_other|apply T].
      intros c'. unfold upd. destruct (Nat.eqb_spec c' c) as [->|]; [rewrite in_snoc; intuition congruence|reflexivity].
  - intros u. rewrite FN. f_equal. unfold upd. destruct (Nat.eqb_spec u t) as [->|]; [rewrite K|]; reflexivity.
Qed.

Lemma pop_other : forall s t, ~ In t (q s) -> ts (pop_node s) t = ts s t /\ d (pop_node s) t = d s t /\ is_owner (pop_node s) t = false.
Proof.
  intros s t N. unfold pop_node. destruct (q s) as [|x l]; [sf; auto|].
  assert (t <> x) by (intros ->; apply N; now left).
  destruct (match ts s x with TWQ r b => (TWake r b, d s x) | _ => (TRun, 1) end) as [k dx]. unfold is_owner; sf. rewrite !upd_other by assumption.
  rewrite (proj2 (Nat.eqb_neq x t)) by congruence. auto.
Qed.
Lemma pop_frame : forall s, cq (pop_node s) = cq s /\ nots (pop_node s) = nots s /\ rets (pop_node s) = rets s.
Proof. intros s. unfold pop_node. destruct (q s) as [|x l]; [auto|]. destruct (match ts s x with TWQ r b => (TWake r b, d s x) | _ => (TRun, 1) end). auto. Qed.

Definition strip (s : st) (t : nat) : st := (* t not in any condition queue, not holding *)
  S_ (owner s) (rc s) (q s) (wc s) (fun c => filter (fun x => negb (x =? t)) (cq s c)) (upd (ts s) t TRun) (bad s) (upd (d s) t 0) (arr s) (gr s) (nots s) (rets s).
Lemma pop_strip : forall s t, ~ In t (q s) ->
  let a := pop_node s in let b := pop_node (strip s t) in
  owner b = owner a /\ rc b = rc a /\ q b = q a /\ wc b = wc a /\ arr b = arr a /\ gr b = gr a /\ bad b = bad a /\
  (forall u, u <> t -> ts b u = ts a u /\ d b u = d a u).
Proof.
  intros s t N. unfold pop_node, strip; sf. destruct (q s) as [|x l].
  - sf. repeat (split; [reflexivity|]). intros u NU. rewrite !upd_other by exact NU. auto.
  - assert (X : x <> t) by (intros ->; apply N; now left). rewrite !(upd_other _ _ t x) by exact X.
    destruct (match ts s x with TWQ r b => (TWake r b, d s x) | _ => (TRun, 1) end) as [k dx]. sf.
    repeat (split; [reflexivity|]). intros u NU. unfold upd. destruct (u =? x); [auto|]. destruct (Nat.eqb_spec u t); [contradiction|auto].
Qed.
Lemma nodup_filter : forall f (l : list nat), NoDup l -> NoDup (filter f l).
Proof.
  intros f l H. induction H as [|x l N H IH]; cbn; [constructor|]. destruct (f x); [|exact IH]. constructor; [|exact IH].
  intros X. apply filter_In in X. tauto.
Qed.

Lemma wait2_inv : forall s t c, Inv s -> ts s t = TW1 c -> Inv (wait2 s t c).
Proof.
  intros s t c I K. pose proof I as I0. parts I. destruct (T t) as (At & Ct & Xt). rewrite K in *. destruct Xt as [O Dt]. apply is_owner_true in O.
  rewrite O in IO. assert (NQ : ~ In t (q s)) by (rewrite At; discriminate).
  assert (IS : Inv (pop_node (strip s t))).
  { apply pop_inv.
    - unfold Pre, strip; sf. split; [exact ND|]. split; [exact WC|]. split; [intros c'; apply nodup_filter, NC|]. split; [exact FA|].
      split; [|exact B]. intros u. rewrite FN. f_equal. unfold upd. destruct (Nat.eqb_spec u t) as [->|]; [rewrite K|]; reflexivity.
    - intros u. destruct (T u) as (A & C & X). unfold tokN, strip; sf. unfold upd. destruct (Nat.eqb_spec u t) as [->|N].
      + split; [rewrite At; reflexivity|]. split; [|auto].
        intros c'. rewrite filter_In, Nat.eqb_refl. cbn. split; [intros [_ H]; discriminate|intros [H|[r H]]; discriminate].
      + split; [exact A|]. split.
        * intros c'. rewrite filter_In, <- C. apply Nat.eqb_neq in N. rewrite N. cbn. tauto.
        * rewrite (is_owner_some _ _ _ O), (proj2 (Nat.eqb_neq t u)) in X by congruence. destruct (ts s u); intuition discriminate. }
  destruct (pop_strip s t NQ) as (E1 & E2 & E3 & E4 & E5 & E6 & E7 & E8).
  destruct (pop_frame s) as (F1 & F2 & F3). destruct (pop_frame (strip s t)) as (G1 & G2 & G3). change (cq (strip s t)) with (fun c => filter (fun x => negb (x =? t)) (cq s c)) in G1. change (nots (strip s t)) with (nots s) in G2. change (rets (strip s t)) with (rets s) in G3.
  destruct (pop_other s t NQ) as (P1 & P2 & P3).
  destruct IS as (IO' & ND' & WC' & NC' & T' & FA' & FN' & B').
  rewrite E1, E2, E3 in IO'. rewrite E3 in ND'. rewrite E3, E4 in WC'. rewrite E3, E5, E6 in FA'. rewrite E7 in B'.
  unfold Inv, wait2; sf. split; [exact IO'|]. split; [exact ND'|]. split; [exact WC'|]. split; [rewrite F1; exact NC|].
  split; [|split; [exact FA'|split; [|exact B']]].
  - intros u. destruct (Nat.eq_dec u t) as [->|N].
    + unfold tok; sf. rewrite !upd_same. split.
      * rewrite <- E3. destruct (T' t) as (A' & _ & _). rewrite A'. 
        assert (H : ts (pop_node (strip s t)) t = TRun) by (destruct (pop_other (strip s t) t NQ) as (P & _ & _); rewrite P; unfold strip; sf; apply upd_same).
        rewrite H. cbn. tauto.
      * split; [|unfold is_owner in *; sf; auto].
        intros c'. rewrite F1, Ct. split; [intros [H|[r H]]; [inversion H; subst; right; eauto|discriminate]|intros [H|[r H]]; [discriminate|inversion H; subst; now left]].
    + destruct (E8 u N) as [U1 U2]. apply (tok_ext (pop_node (strip s t))); unfold is_owner; sf; [rewrite E3; reflexivity| |now rewrite upd_other, U1|now rewrite upd_other, U2|now rewrite E1|intros _; congruence|apply T'].
      intros c'. rewrite F1, G1. rewrite filter_In. apply Nat.eqb_neq in N. rewrite N. cbn. tauto.
  - intros u. rewrite F2, F3. unfold upd. destruct (Nat.eqb_spec u t) as [->|N]; [rewrite FN, K; reflexivity|].
    specialize (FN' u). rewrite G2, G3 in FN'. rewrite FN'. now rewrite (proj1 (E8 u N)).
Qed.

Lemma wakeup_inv : forall s t r b, Inv s -> ts s t = TWake r b -> Inv (wakeup s t r b).
Proof.
  intros s t r b I K. parts I. destruct (T t) as (At & Ct & Xt). rewrite K in *. destruct Xt as (O & R1 & Dt & R). apply is_owner_true in O.
  rewrite O in IO. unfold Inv, wakeup; sf. rewrite O. split; [exact R|]. split; [exact ND|]. split; [exact WC|]. split; [exact NC|].
  split; [|split; [exact FA|split; [|exact B]]].
  - intros u. destruct (T u) as (A & C & X). unfold tok, is_owner in *; sf. rewrite O in *. destruct (Nat.eq_dec u t) as [->|N].
    + rewrite !upd_same, Nat.eqb_refl. split; [exact At|]. split; [|reflexivity].
      intros c'. rewrite Ct. split; intros [H|[r' H]]; discriminate.
    + rewrite !upd_other by exact N. rewrite (proj2 (Nat.eqb_neq t u)) in * by congruence. split; [exact A|]. split; [exact C|].
      destruct (ts s u); intuition discriminate.
  - intros u. rewrite FN. unfold of at 2. rewrite filter_app. fold (of u (rets s)). cbn. unfold upd. rewrite (Nat.eqb_sym t u). destruct (Nat.eqb_spec u t) as [->|N]; cbn.
    + rewrite K. now rewrite app_nil_r.
    + now rewrite app_nil_r.
Qed.

Lemma step_inv : forall multi s o s', Inv s -> step multi true s o = Some s' -> Inv s'.
Proof.
  intros multi s o s' I H. destruct o as [t|t|t|t c|t|t|t c|t c|t c]; cbn [step] in H.
  - destruct (ts s t) eqn:K; try discriminate. destruct (multi || negb (is_owner s t)) eqn:M; [|discriminate]. inversion H; subst. now apply lock_inv.
  - destruct (ts s t) eqn:K; try discriminate. inversion H; subst. now apply try_inv.
  - destruct (ts s t) eqn:K; try discriminate. destruct (is_owner s t) eqn:M; [|discriminate]. inversion H; subst. apply unlock_inv; auto using is_owner_true.
  - destruct (ts s t) eqn:K; try discriminate. destruct (is_owner s t) eqn:M; [|discriminate]. inversion H; subst. apply wait1_inv; auto using is_owner_true.
  - destruct (ts s t) eqn:K; try discriminate. inversion H; subst. now apply wait2_inv.
  - destruct (ts s t) eqn:K; try discriminate. inversion H; subst. now apply wakeup_inv.
  - destruct (ts s t) eqn:K; try discriminate. destruct (is_owner s t) eqn:M; [|discriminate]. cbn in H. inversion H; subst. clear H. apply is_owner_true in M.
    unfold notify_one. destruct (cq s c) as [|x l] eqn:C; [exact I|]. cbn [fst].
    assert (NDx : NoDup (x :: l)) by (rewrite <- C; parts I; apply NC). inversion NDx; subst.
    apply remove_notify_inv; auto; [rewrite C; now left|intros u N; rewrite C; cbn; intuition congruence|apply (no_tw1 _ _ I M K)].
  - destruct (ts s t) eqn:K; try discriminate. destruct (is_owner s t) eqn:M; [|discriminate]. cbn in H. inversion H; subst. clear H. apply is_owner_true in M.
    unfold notify_all. cbn [fst]. now apply notify_list_inv with (t := t).
  - assert (NW : forall c', ts s t <> TW1 c') by (intros c' E; rewrite E in H; discriminate).
    assert (H' : s' = timeout s t c) by (destruct (ts s t); congruence). subst s'. unfold timeout.
    destruct (existsb (Nat.eqb t) (cq s c)) eqn:X; [|exact I]. apply existsb_exists in X. destruct X as (y & Hy & E). apply Nat.eqb_eq in E. subst y.
    apply remove_notify_inv; auto.
    + apply nodup_filter. parts I. apply NC.
    + rewrite filter_In, Nat.eqb_refl. cbn. intros [_ F]. discriminate.
    + intros u N. rewrite filter_In. apply Nat.eqb_neq in N. rewrite N. cbn. tauto.
Qed.
Lemma init_inv : Inv init.
Proof.
  unfold Inv, init; sf. split; [auto|]. split; [constructor|]. split; [reflexivity|]. split; [intros; constructor|]. split; [|auto].
  intros t. unfold tok; cbn. split; [intuition|]. split; [|reflexivity]. intros c. split; [intros []|intros [H|[r H]]; discriminate].
Qed.
Lemma reach_inv : forall multi s, reach multi true s -> Inv s.
Proof. intros multi s H. remember true as h. induction H; subst; [apply init_inv|]. eapply step_inv; eauto. Qed.
