From Coq Require Import List Bool Arith Lia.
From Verif.Futex Require Import Spec Gen GoMutex.
Import ListNotations.
Arguments del : simpl never.
Arguments nth : simpl never.
Ltac sf := cbn [val zz pcs go_] in *.

Definition holds (k : pc) : bool := match k with Hold | Unl => true | _ => false end.
Definition asleep (k : pc) : bool := match k with Asleep => true | _ => false end.
Definition carrier (k : pc) : bool := match k with Spin i | Cas i => i =? 2 | Xchg | FWait | Wake => true | _ => false end.
Definition iok (k : pc) : bool := match k with Spin i | Cas i => (i =? 1) || (i =? 2) | _ => true end.
Definition Inv (s : st) : Prop :=
  exclusive (fun t => holds (pcs s t)) /\ (val s = 0 -> forall t, holds (pcs s t) = false) /\
  (val s <> 0 -> exists t, holds (pcs s t) = true) /\ val s <= 2 /\
  (forall t, In t (zz s) <-> asleep (pcs s t) = true) /\ NoDup (zz s) /\
  (zz s <> [] -> val s = 2 \/ exists t, carrier (pcs s t) = true) /\ (forall t, negb (iok (pcs s t)) = false).
Ltac parts H := destruct H as (EX & Z0 & Z1 & V2 & ZZ & ND & LW & IK).

(** A step that leaves the sleepers alone. *)
Lemma go_inv : forall s t v k, Inv s -> v <= 2 -> asleep (pcs s t) = false -> asleep k = false -> iok k = true ->
  (holds k = true -> holds (pcs s t) = true \/ val s = 0) -> (v = 0 -> holds k = false /\ (val s = 0 \/ holds (pcs s t) = true)) ->
  (v <> 0 -> holds k = true \/ holds (pcs s t) = false /\ val s <> 0) ->
  (zz s <> [] -> v = 2 \/ carrier k = true \/ (val s <> 2 /\ carrier (pcs s t) = false)) -> Inv (go_ s v t k).
Proof.
  intros s t v k I V A1 A2 IO H1 H2 H3 H4. parts I. unfold Inv; sf.
  split; [apply ex_upd; [exact EX|intros E; destruct (H1 E) as [X|X]; auto]|].
  split; [intros E; destruct (H2 E) as [X [Y|Y]]; [apply none_upd; auto|now apply ex_free]|].
  split; [intros E; destruct (H3 E) as [X|[X Y]]; [exists t; now rewrite upd_same|apply some_upd; [rewrite X; discriminate|auto]]|].
  split; [exact V|]. split; [apply zz_upd; [exact ZZ|congruence]|]. split; [exact ND|]. split.
  - intros E. destruct (H4 E) as [X|[X|[X Y]]]; [now left|right; exists t; now rewrite upd_same|].
    destruct (LW E) as [Z|Z]; [contradiction|]. right. apply some_upd; [rewrite Y; discriminate|exact Z].
  - intros u. unfold upd. destruct (u =? t); [now rewrite IO|apply IK].
Qed.

Lemma step_inv : forall s t c s', Inv s -> step s t c = Some s' -> Inv s'.
Proof.
  intros s t c s' I H. pose proof I as I0. parts I. unfold step in H.
  assert (VH : holds (pcs s t) = true -> val s <> 0) by (intros E V; rewrite (Z0 V t) in E; discriminate).
  assert (IT := IK t).
  destruct (pcs s t) as [| |i|i| | | | | |] eqn:K.
  - inversion H; subst; clear H. apply go_inv; rewrite ?K; auto; try discriminate; intros E; destruct (Nat.eq_dec (val s) 2); auto.
  - inversion H; subst; clear H. destruct (Nat.eqb_spec (val s) 0) as [V|V]; apply go_inv; rewrite ?K; auto; try discriminate; try lia.
    + intros _. right. right. split; [lia|reflexivity].
    + cbn. destruct (val s) as [|[|[|]]]; try lia; reflexivity.
    + intros E. right. destruct (Nat.eq_dec (val s) 2) as [W|W]; [left; cbn; now rewrite W|right; auto].
  - inversion H; subst; clear H. destruct (Nat.eqb_spec (val s) 0) as [V|V]; [|destruct (c =? 0)]; apply go_inv; rewrite ?K; auto; try discriminate; try lia; try (cbn in *; now apply negb_false_iff in IT); cbn.
    + intros E. destruct (Nat.eqb_spec i 2); [auto|]. right. right. split; [lia|reflexivity].
    + intros E. destruct (Nat.eqb_spec i 2); [auto|]. destruct (Nat.eq_dec (val s) 2); auto.
  - cbn in IT. apply negb_false_iff in IT. destruct (Nat.eqb_spec (val s) 0) as [V|V]; inversion H; subst; clear H; apply go_inv; rewrite ?K; auto; try discriminate; try lia; cbn.
    + destruct (Nat.eqb_spec i 1), (Nat.eqb_spec i 2); try discriminate; lia.
    + intros ->. discriminate.
    + destruct (Nat.eqb_spec i 1), (Nat.eqb_spec i 2); try discriminate; intros E; auto. right. right. split; [lia|reflexivity].
    + intros E. destruct (Nat.eqb_spec i 2); [auto|]. destruct (Nat.eq_dec (val s) 2); auto.
  - inversion H; subst; clear H. destruct (Nat.eqb_spec (val s) 0) as [V|V]; apply go_inv; rewrite ?K; auto; try discriminate; lia.
  - destruct (Nat.eqb_spec (val s) 2) as [W|W]; inversion H; subst; clear H.
    + unfold Inv; sf. split; [apply ex_upd; [exact EX|discriminate]|]. split; [lia|]. split; [intros E; apply some_upd; [rewrite K; discriminate|auto]|]. split; [exact V2|].
      split; [|split; [constructor; [rewrite ZZ, K; discriminate|exact ND]|split; [auto|]]].
      * intros u. unfold upd. destruct (Nat.eqb_spec u t) as [->|N]; [cbn; tauto|]. rewrite <- ZZ. cbn. intuition congruence.
      * intros u. unfold upd. destruct (u =? t); [reflexivity|apply IK].
    + apply go_inv; rewrite ?K; auto; try discriminate.
  - inversion H; subst; clear H. unfold Inv; sf. split; [apply ex_upd; [exact EX|discriminate]|]. split; [intros E; apply none_upd; [reflexivity|auto]|].
    split; [intros E; apply some_upd; [rewrite K; discriminate|auto]|]. split; [exact V2|].
    split; [|split; [now apply nodup_del|split; [intros _; right; exists t; now rewrite upd_same|]]].
    + intros u. rewrite in_del. unfold upd. destruct (Nat.eqb_spec u t) as [->|N]; [cbn; intuition discriminate|]. rewrite ZZ. intuition.
    + intros u. unfold upd. destruct (u =? t); [reflexivity|apply IK].
  - inversion H; subst; clear H. apply go_inv; rewrite ?K; auto; try discriminate; intros E; destruct (Nat.eq_dec (val s) 2); auto. all: try (specialize (VH eq_refl); lia).
  - inversion H; subst; clear H. specialize (VH eq_refl). destruct (Nat.eqb_spec (val s) 1) as [V|V]; apply go_inv; rewrite ?K; auto; try discriminate; try lia.
    intros E. right. right. split; [lia|reflexivity].
  - destruct (zz s) as [|y z] eqn:Z; inversion H; subst; clear H.
    + apply go_inv; rewrite ?K, ?Z; auto; try discriminate; try congruence.
    + remember (nth c (y :: z) y) as x eqn:EX0.
      assert (XI : In x (y :: z)).
      { subst x. destruct (nth_in_or_default c (y :: z) y) as [F|F]; [exact F|rewrite F; now left]. }
      assert (XA : asleep (pcs s x) = true) by now apply ZZ.
      assert (XT : x <> t) by (intros ->; rewrite K in XA; discriminate).
      assert (XH : holds (pcs s x) = false) by (destruct (pcs s x); try discriminate XA; reflexivity).
      unfold Inv; sf. split; [apply ex_upd; [apply ex_upd; [exact EX|discriminate]|discriminate]|].
      split; [intros E; apply none_upd; [reflexivity|apply none_upd; [reflexivity|auto]]|].
      split; [intros E; apply some_upd; [rewrite upd_other, XH by exact XT; discriminate|apply some_upd; [rewrite K; discriminate|auto]]|].
      split; [exact V2|]. split; [|split; [now apply nodup_del|split; [intros _; right; exists x; now rewrite upd_same|]]].
      * intros u. rewrite in_del. unfold upd. destruct (Nat.eqb_spec u x) as [->|N]; [cbn; intuition discriminate|].
        destruct (Nat.eqb_spec u t) as [->|NT]; [rewrite ZZ, K; cbn; intuition discriminate|]. rewrite ZZ. intuition.
      * intros u. unfold upd. destruct (u =? x); [reflexivity|]. destruct (u =? t); [reflexivity|apply IK].
Qed.
Lemma reach_inv : forall s, reach s -> Inv s.
Proof.
  intros s H. induction H; [|eapply step_inv; eauto]. unfold Inv, init; sf. split; [intros t u; discriminate|]. split; [reflexivity|]. split; [congruence|]. split; [lia|].
  split; [intros t; cbn; intuition discriminate|]. split; [constructor|]. split; [congruence|reflexivity].
Qed.
