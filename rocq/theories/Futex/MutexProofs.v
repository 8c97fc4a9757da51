From Coq Require Import List Bool Arith Lia.
From Verif.Futex Require Import Spec Mutex.
Import ListNotations.
Arguments del : simpl never.
Arguments nth : simpl never.
Ltac sf := cbn [val zz pcs go_] in *.

Definition holds (k : pc) : bool := match k with Hold | Unl => true | _ => false end.
Definition carrier (k : pc) : bool := match k with Xchg | FWait | Wake => true | _ => false end.
Definition Inv (s : st) : Prop :=
  exclusive (fun t => holds (pcs s t)) /\ (val s = 0 -> forall t, holds (pcs s t) = false) /\
  (val s <> 0 -> exists t, holds (pcs s t) = true) /\ val s <= 2 /\
  (forall t, In t (zz s) <-> pcs s t = Asleep) /\ NoDup (zz s) /\
  (zz s <> [] -> val s = 2 \/ exists t, carrier (pcs s t) = true).

Lemma upd_same : forall f i x, upd f i x i = x.
Proof. intros. unfold upd. now rewrite Nat.eqb_refl. Qed.
Lemma upd_other : forall f i j x, j <> i -> upd f i x j = f j.
Proof. intros f i j x N. unfold upd. destruct (Nat.eqb_spec j i); [contradiction|reflexivity]. Qed.
Lemma ex_upd : forall (p : pc -> bool) f t k, exclusive (fun u => p (f u)) -> (p k = true -> p (f t) = true \/ forall u, p (f u) = false) ->
  exclusive (fun u => p (upd f t k u)).
Proof.
  intros p f t k E H u v. unfold upd. destruct (Nat.eqb_spec u t) as [U|U], (Nat.eqb_spec v t) as [V|V]; try congruence; intros A B.
  - destruct (H A) as [X|X]; [subst; now apply E|rewrite X in B; discriminate].
  - destruct (H B) as [X|X]; [subst; now apply E|rewrite X in A; discriminate].
  - now apply E.
Qed.
Lemma some_upd : forall (p : pc -> bool) f t k, (p (f t) = true -> p k = true) -> (exists u, p (f u) = true) -> exists u, p (upd f t k u) = true.
Proof. intros p f t k E [u H]. exists u. unfold upd. destruct (Nat.eqb_spec u t) as [->|]; auto. Qed.
Lemma none_upd : forall (p : pc -> bool) f t k, p k = false -> (forall u, p (f u) = false) -> forall u, p (upd f t k u) = false.
Proof. intros p f t k E H u. unfold upd. destruct (u =? t); auto. Qed.
Lemma zz_upd : forall (z : list nat) f t k, (forall u, In u z <-> f u = Asleep) -> f t <> Asleep -> k <> Asleep -> forall u, In u z <-> upd f t k u = Asleep.
Proof. intros z f t k H A B u. unfold upd. destruct (Nat.eqb_spec u t) as [->|]; [rewrite H; tauto|apply H]. Qed.
Lemma in_del : forall x l u, In u (del x l) <-> In u l /\ u <> x.
Proof. intros. unfold del. rewrite filter_In. destruct (Nat.eqb_spec u x); cbn; intuition (try discriminate). Qed.
Lemma nodup_del : forall x l, NoDup l -> NoDup (del x l).
Proof.
  intros x l H. unfold del. induction H as [|y l N H IH]; cbn; [constructor|]. destruct (negb (y =? x)); [|exact IH]. constructor; [|exact IH].
  intros X. apply filter_In in X. tauto.
Qed.
Ltac parts H := destruct H as (EX & Z0 & Z1 & V2 & ZZ & ND & LW).

Lemma others_free : forall s t, Inv s -> holds (pcs s t) = true -> forall k, holds k = false -> forall u, holds (upd (pcs s) t k u) = false.
Proof.
  intros s t I H k K u. parts I. unfold upd. destruct (Nat.eqb_spec u t) as [->|N]; [exact K|].
  destruct (holds (pcs s u)) eqn:E; [|reflexivity]. destruct N. now apply EX.
Qed.

Lemma step_inv : forall s t c s', Inv s -> step s t c = Some s' -> Inv s'.
Proof.
  intros s t c s' I H. pose proof I as I0. parts I. unfold step in H. destruct (pcs s t) eqn:K; inversion H; subst; clear H.
  - (* Idle *) unfold Inv; sf. split; [apply ex_upd; [exact EX|discriminate]|]. split; [intros E; apply none_upd; [reflexivity|auto]|].
    split; [intros E; apply some_upd; [rewrite K; discriminate|auto]|]. split; [exact V2|]. split; [apply zz_upd; auto; congruence|]. split; [exact ND|].
    intros E. destruct (LW E) as [X|X]; [auto|right; apply some_upd; [rewrite K; discriminate|exact X]].
  - (* Try *) destruct (Nat.eqb_spec (val s) 0) as [V|V]; [|destruct (Nat.eqb_spec (val s) 2) as [W|W]]; inversion H1; subst; clear H1; unfold Inv; sf.
    + split; [apply ex_upd; [exact EX|right; auto]|]. split; [discriminate|]. split; [intros _; exists t; now rewrite upd_same|]. split; [lia|].
      split; [apply zz_upd; auto; congruence|]. split; [exact ND|].
      intros E. destruct (LW E) as [X|X]; [lia|right; apply some_upd; [rewrite K; discriminate|exact X]].
    + split; [apply ex_upd; [exact EX|discriminate]|]. split; [lia|]. split; [intros E; apply some_upd; [rewrite K; discriminate|auto]|]. split; [exact V2|].
      split; [apply zz_upd; auto; congruence|]. split; [exact ND|]. auto.
    + assert (KK : holds (if c =? 0 then Xchg else Try) = false /\ (if c =? 0 then Xchg else Try) <> Asleep) by (destruct (c =? 0); split; (reflexivity || discriminate)). destruct KK as [K1 K2].
      split; [apply ex_upd; [exact EX|rewrite K1; discriminate]|]. split; [lia|]. split; [intros E; apply some_upd; [rewrite K; discriminate|auto]|]. split; [exact V2|].
      split; [apply zz_upd; auto; congruence|]. split; [exact ND|].
      intros E. destruct (LW E) as [X|X]; [lia|right; apply some_upd; [rewrite K; discriminate|exact X]].
  - (* Xchg *) unfold Inv; sf. split; [apply ex_upd; [exact EX|]|].
    { destruct (Nat.eqb_spec (val s) 0); [right; auto|discriminate]. }
    split; [discriminate|]. split.
    { intros _. destruct (Nat.eqb_spec (val s) 0) as [V|V]; [exists t; now rewrite upd_same|]. apply some_upd; [rewrite K; discriminate|auto]. }
    split; [lia|]. split; [apply zz_upd; auto; [congruence|destruct (val s =? 0); discriminate]|]. split; [exact ND|auto].
  - (* FWait *) destruct (Nat.eqb_spec (val s) 2) as [W|W]; inversion H1; subst; clear H1; unfold Inv; sf.
    + split; [apply ex_upd; [exact EX|discriminate]|]. split; [lia|]. split; [intros E; apply some_upd; [rewrite K; discriminate|auto]|]. split; [exact V2|].
      split; [|split; [constructor; [rewrite ZZ, K; discriminate|exact ND]|auto]].
      intros u. unfold upd. destruct (Nat.eqb_spec u t) as [->|N]; [cbn; tauto|]. rewrite <- ZZ. cbn. intuition congruence.
    + split; [apply ex_upd; [exact EX|discriminate]|]. split; [intros E; apply none_upd; [reflexivity|auto]|].
      split; [intros E; apply some_upd; [rewrite K; discriminate|auto]|]. split; [exact V2|]. split; [apply zz_upd; auto; congruence|]. split; [exact ND|].
      intros _. right. exists t. now rewrite upd_same.
  - (* Asleep *) unfold Inv; sf. split; [apply ex_upd; [exact EX|discriminate]|]. split; [intros E; apply none_upd; [reflexivity|auto]|].
    split; [intros E; apply some_upd; [rewrite K; discriminate|auto]|]. split; [exact V2|]. split; [|split; [now apply nodup_del|intros _; right; exists t; now rewrite upd_same]].
    intros u. rewrite in_del. unfold upd. destruct (Nat.eqb_spec u t) as [->|N]; [intuition discriminate|]. rewrite ZZ. intuition.
  - (* Hold *) unfold Inv; sf. split; [apply ex_upd; [exact EX|rewrite K; auto]|]. 
    assert (V : val s <> 0) by (intros V; specialize (Z0 V t); rewrite K in Z0; discriminate).
    split; [lia|]. split; [intros E; apply some_upd; [auto|auto]|]. split; [exact V2|]. split; [apply zz_upd; auto; congruence|]. split; [exact ND|].
    intros E. destruct (LW E) as [X|X]; [auto|right; apply some_upd; [rewrite K; discriminate|exact X]].
  - (* Unl *) assert (HT : holds (pcs s t) = true) by now rewrite K.
    assert (K1 : holds (if val s =? 1 then Idle else Wake) = false) by (destruct (val s =? 1); reflexivity).
    assert (V : val s <> 0) by (intros V; specialize (Z0 V t); rewrite K in Z0; discriminate).
    unfold Inv; sf. split; [apply ex_upd; [exact EX|rewrite K1; discriminate]|]. split; [intros _; now apply others_free|]. split; [lia|]. split; [lia|].
    split; [apply zz_upd; auto; [congruence|destruct (val s =? 1); discriminate]|]. split; [exact ND|].
    intros E. right. destruct (Nat.eqb_spec (val s) 1) as [V1|V1].
    + destruct (LW E) as [X|X]; [lia|apply some_upd; [rewrite K; discriminate|exact X]].
    + exists t. now rewrite upd_same.
  - (* Wake *) destruct (zz s) as [|y z] eqn:Z; inversion H1; subst; clear H1; unfold Inv; sf.
    + rewrite Z in *. split; [apply ex_upd; [exact EX|discriminate]|]. split; [intros E; apply none_upd; [reflexivity|auto]|].
      split; [intros E; apply some_upd; [rewrite K; discriminate|auto]|]. split; [exact V2|]. split; [apply zz_upd; auto; congruence|]. split; [exact ND|congruence].
    + remember (nth c (y :: z) y) as x eqn:EX0.
      assert (XI : In x (y :: z)).
      { subst x. destruct (nth_in_or_default c (y :: z) y) as [F|F]; [exact F|rewrite F; now left]. }
      assert (XA : pcs s x = Asleep) by now apply ZZ.
      assert (XT : x <> t) by congruence.
      split; [apply ex_upd; [apply ex_upd; [exact EX|discriminate]|discriminate]|].
      split; [intros E; apply none_upd; [reflexivity|apply none_upd; [reflexivity|auto]]|].
      split; [intros E; apply some_upd; [rewrite upd_other, XA by exact XT; discriminate|apply some_upd; [rewrite K; discriminate|auto]]|].
      split; [exact V2|]. split; [|split; [now apply nodup_del|intros _; right; exists x; now rewrite upd_same]].
      intros u. rewrite in_del. unfold upd. destruct (Nat.eqb_spec u x) as [->|N]; [intuition discriminate|].
      destruct (Nat.eqb_spec u t) as [->|NT]; [rewrite ZZ, K; intuition discriminate|]. rewrite ZZ. intuition.
Qed.
Lemma reach_inv : forall s, reach s -> Inv s.
Proof.
  intros s H. induction H; [|eapply step_inv; eauto]. unfold Inv, init; sf. split; [intros t u; discriminate|]. split; [reflexivity|]. split; [congruence|]. split; [lia|].
  split; [intros t; cbn; intuition discriminate|]. split; [constructor|congruence].
Qed.
