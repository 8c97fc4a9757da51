(** Headers and nodes representing disjoint lists, for any representation of one list that depends only on the fields of its nodes. *)
From Coq Require Import List Bool Arith Lia.
From Verif.Collections Require Import Spec Model.
Import ListNotations.
Lemma upd_same {A} (f : nat -> A) i x : upd f i x i = x. Proof. unfold upd. now rewrite Nat.eqb_refl. Qed.
Lemma upd_other {A} (f : nat -> A) i x j : j <> i -> upd f i x j = f j. Proof. intro; unfold upd. destruct (Nat.eqb_spec j i); congruence. Qed.
Lemma set_same L l xs : set L l xs l = xs. Proof. unfold set. now rewrite Nat.eqb_refl. Qed.
Lemma set_other L l xs k : k <> l -> set L l xs k = L k. Proof. intro; unfold set. destruct (Nat.eqb_spec k l); congruence. Qed.
Lemma onb_refl a : onb a a = true. Proof. destruct a; cbn [onb]; auto. apply Nat.eqb_refl. Qed.
Lemma onb_ne a b : a <> b -> onb a b = false. Proof. destruct a as [a|], b as [b|]; cbn [onb]; intro; try congruence. apply Nat.eqb_neq. congruence. Qed.
Definition same h h' x := nxt h' x = nxt h x /\ bck h' x = bck h x.
Section Rep.
Variable lk : heap -> list nat -> Prop.
Variable hdr : heap -> nat -> list nat -> Prop.
Variable null : heap -> nat -> Prop.
Hypothesis lk_ext : forall h h' xs, (forall x, In x xs -> same h h' x) -> lk h xs -> lk h' xs.
Hypothesis hdr_ext : forall h h' l xs, root h' l = root h l -> last h' l = last h l -> hdr h l xs -> hdr h' l xs.
Hypothesis null_ext : forall h h' x, same h h' x -> null h x -> null h' x.
Record Rep (h : heap) (L : lists) : Prop := {
  rN : forall l, NoDup (L l);
  rD : forall l k n, In n (L l) -> In n (L k) -> l = k;
  rH : forall l, hdr h l (L l);
  rK : forall l, lk h (L l);
  rU : forall n, unlisted L n -> null h n }.
Lemma rep_ext h L L' : (forall k, L' k = L k) -> Rep h L -> Rep h L'.
Proof.
  intros E R. constructor; intros.
  - rewrite E. apply (rN _ _ R).
  - rewrite E in *. apply (rD _ _ R) with n; auto.
  - rewrite E. apply (rH _ _ R).
  - rewrite E. apply (rK _ _ R).
  - apply (rU _ _ R). intro k. rewrite <- E. apply H.
Qed.
Lemma rep_gen h h' L L' ls : Rep h L ->
  (forall k, ~ In k ls -> L' k = L k /\ root h' k = root h k /\ last h' k = last h k) ->
  (forall k, In k ls -> NoDup (L' k) /\ hdr h' k (L' k) /\ lk h' (L' k)) ->
  (forall k x, In k ls -> In x (L' k) -> (exists j, In j ls /\ In x (L j)) \/ unlisted L x) ->
  (forall j k x, In j ls -> In k ls -> In x (L' j) -> In x (L' k) -> j = k) ->
  (forall x, (forall j, In j ls -> ~ In x (L j) /\ ~ In x (L' j)) -> same h h' x) ->
  (forall j x, In j ls -> In x (L j) -> (forall k, In k ls -> ~ In x (L' k)) -> null h' x) -> Rep h' L'.
Proof.
  intros R A B C D E F.
  assert (T : forall k, In k ls \/ ~ In k ls) by (intro k; destruct (in_dec Nat.eq_dec k ls); auto).
  assert (OUT : forall k x j, ~ In k ls -> In x (L k) -> In j ls -> ~ In x (L j) /\ ~ In x (L' j)).
  { intros k x j Nk Ix Ij. split.
    - intro I. apply Nk. now rewrite (rD _ _ R k j x Ix I).
    - intro I. destruct (C j x Ij I) as [(i & Ii & I2)|U]; [|exact (U k Ix)]. apply Nk. now rewrite (rD _ _ R k i x Ix I2). }
  constructor.
  - intro k. destruct (T k) as [I|N]; [apply (B k I)|]. rewrite (proj1 (A k N)). apply (rN _ _ R).
  - intros j k x Ij Ik. destruct (T j) as [Tj|Tj], (T k) as [Tk|Tk].
    + exact (D j k x Tj Tk Ij Ik).
    + rewrite (proj1 (A k Tk)) in Ik. destruct (OUT k x j Tk Ik Tj) as [_ O]. contradiction.
    + rewrite (proj1 (A j Tj)) in Ij. destruct (OUT j x k Tj Ij Tk) as [_ O]. contradiction.
    + rewrite (proj1 (A j Tj)) in Ij. rewrite (proj1 (A k Tk)) in Ik. exact (rD _ _ R j k x Ij Ik).
  - intro k. destruct (T k) as [I|N]; [apply (B k I)|]. destruct (A k N) as (E1 & E2 & E3). rewrite E1. apply (hdr_ext h); auto. apply (rH _ _ R).
  - intro k. destruct (T k) as [I|N]; [apply (B k I)|]. rewrite (proj1 (A k N)). apply (lk_ext h); [|apply (rK _ _ R)]. intros x Ix. apply E. intros j Ij. exact (OUT k x j N Ix Ij).
  - intros x U. assert (DEC : (exists j, In j ls /\ In x (L j)) \/ (forall j, In j ls -> ~ In x (L j))).
    { clear - ls. induction ls as [|i r [(j & Ij & I)|IH]]; [right; intros j []|left; exists j; split; [now right|auto]|].
      destruct (in_dec Nat.eq_dec x (L i)) as [I|N]; [left; exists i; split; [now left|auto]|right; intros j [<-|Ij]; auto]. }
    destruct DEC as [(j & Ij & I)|NI].
    + apply (F j x Ij I). intros k _. apply U.
    + apply (null_ext h). { apply E. intros j Ij. split; [auto|apply U]. }
      apply (rU _ _ R). intros k Ik. destruct (T k) as [I|N]; [exact (NI k I Ik)|]. apply (U k). now rewrite (proj1 (A k N)).
Qed.
Lemma rep_one h h' L l xs' : Rep h L ->
  (forall k, k <> l -> root h' k = root h k /\ last h' k = last h k) -> NoDup xs' -> hdr h' l xs' -> lk h' xs' ->
  (forall x, In x xs' -> In x (L l) \/ unlisted L x) ->
  (forall x, ~ In x (L l) -> ~ In x xs' -> same h h' x) ->
  (forall x, In x (L l) -> ~ In x xs' -> null h' x) -> Rep h' (set L l xs').
Proof.
  intros R A B C D E F G. apply (rep_gen h h' L _ [l]); auto.
  - intros k N. cbn [In] in N. assert (k <> l) by (intros ->; auto). rewrite set_other by auto. destruct (A k); auto.
  - intros k [<-|[]]. rewrite set_same. auto.
  - intros k x [<-|[]]. rewrite set_same. intro I. destruct (E x I); auto. left. exists l. split; [now left|auto].
  - intros j k x [<-|[]] [<-|[]]; auto.
  - intros x H. destruct (H l (or_introl eq_refl)) as [H1 H2]. rewrite set_same in H2. auto.
  - intros j x [<-|[]] I H. apply G; auto. pose proof (H l (or_introl eq_refl)) as H2. now rewrite set_same in H2.
Qed.
Lemma rep_two h h' L s f xs ys : Rep h L -> s <> f ->
  (forall k, k <> s -> k <> f -> root h' k = root h k /\ last h' k = last h k) ->
  NoDup xs -> hdr h' s xs -> lk h' xs -> NoDup ys -> hdr h' f ys -> lk h' ys ->
  (forall x, In x xs \/ In x ys <-> In x (L s) \/ In x (L f)) -> (forall x, In x xs -> ~ In x ys) ->
  (forall x, ~ In x xs -> ~ In x ys -> same h h' x) -> Rep h' (set (set L f ys) s xs).
Proof.
  intros R N A B C D B2 C2 D2 E F G. 
  assert (Ls : set (set L f ys) s xs s = xs) by apply set_same.
  assert (Lf : set (set L f ys) s xs f = ys) by (rewrite set_other by auto; apply set_same).
  apply (rep_gen h h' L _ [s; f]); auto.
  - intros k Nk. cbn [In] in Nk. assert (k <> s /\ k <> f) as [N1 N2] by (split; intros ->; tauto). rewrite !set_other by auto. destruct (A k N1 N2); auto.
  - intros k [<-|[<-|[]]]; rewrite ?Ls, ?Lf; auto.
  - intros k x [<-|[<-|[]]]; rewrite ?Ls, ?Lf; intro I; left; (assert (J : In x (L s) \/ In x (L f)) by (apply E; auto)); destruct J; [exists s|exists f|exists s|exists f]; split; auto; cbn [In]; auto.
  - intros j k x [<-|[<-|[]]] [<-|[<-|[]]]; rewrite ?Ls, ?Lf; auto; intros I J; exfalso; eapply F; eauto.
  - intros x H. apply G; [destruct (H s)|destruct (H f)]; cbn [In]; auto; [rewrite Ls in *|rewrite Lf in *]; auto.
  - intros j x Ij I H. exfalso. assert (K : In x xs \/ In x ys) by (apply E; destruct Ij as [<-|[<-|[]]]; auto). destruct K as [K|K]; [apply (H s)|apply (H f)]; cbn [In]; auto; [now rewrite Ls|now rewrite Lf].
Qed.
End Rep.
