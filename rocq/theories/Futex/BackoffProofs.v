From Coq Require Import List Bool Arith Lia.
From Verif.Futex Require Import Spec Gen Backoff.
Import ListNotations.
Ltac sf := cbn [val q sl pcs go_] in *.

Definition holds (k : pc) : bool := match k with Hold | Unl => true | _ => false end.
Definition asleep (k : pc) : bool := match k with Asleep => true | _ => false end.
Definition ins (k : pc) : bool := match k with Ins => true | _ => false end.
Definition carrier (k : pc) : bool := match k with Xchg | Blk | Pop | Unpark (Some _) => true | _ => false end.
Definition unparking (x : nat) (k : pc) : bool := match k with Unpark (Some y) => y =? x | _ => false end.
(** blocked: in the queue or about to be unparked *)
Definition Inv (s : st) : Prop :=
  exclusive (fun t => holds (pcs s t)) /\ (val s = 0 -> forall t, holds (pcs s t) = false) /\
  (val s <> 0 -> exists t, holds (pcs s t) = true) /\ val s <= 2 /\
  NoDup (q s) /\ (forall t, asleep (pcs s t) = true <-> (In t (q s) \/ exists u, unparking t (pcs s u) = true)) /\
  (forall x, exclusive (fun t => unparking x (pcs s t))) /\ (forall t u, unparking t (pcs s u) = true -> ~ In t (q s)) /\
  (forall t, ins (pcs s t) = true <-> sl s = Some t) /\
  (q s <> [] \/ sl s <> None -> val s = 2 \/ exists t, carrier (pcs s t) = true).
Ltac parts H := destruct H as (EX & Z0 & Z1 & V2 & ND & AS & UE & UQ & SL & LW).

Definition plain (k : pc) : bool := negb (asleep k) && negb (ins k) && match k with Unpark (Some _) => false | _ => true end.
Lemma plain_un : forall k x, plain k = true -> unparking x k = false.
Proof. intros k x H. destruct k as [| | | | | | | | | |[y|]]; try reflexivity; discriminate. Qed.
(** A step that leaves queue and spin lock alone. *)
Lemma go_inv : forall s t v k, Inv s -> v <= 2 -> plain (pcs s t) = true -> plain k = true ->
  (holds k = true -> holds (pcs s t) = true \/ val s = 0) -> (v = 0 -> holds k = false /\ (val s = 0 \/ holds (pcs s t) = true)) ->
  (v <> 0 -> holds k = true \/ holds (pcs s t) = false /\ val s <> 0) ->
  (q s <> [] \/ sl s <> None -> v = 2 \/ carrier k = true \/ (val s <> 2 /\ carrier (pcs s t) = false)) -> Inv (go_ s v t k).
Proof.
  intros s t v k I V P1 P2 H1 H2 H3 H4. parts I. unfold Inv; sf.
  assert (A1 : asleep (pcs s t) = false /\ ins (pcs s t) = false) by (destruct (pcs s t); try discriminate P1; auto).
  assert (A2 : asleep k = false /\ ins k = false) by (destruct k; try discriminate P2; auto).
  assert (U : forall x u, unparking x (upd (pcs s) t k u) = unparking x (pcs s u)).
  { intros x u. unfold upd. destruct (Nat.eqb_spec u t) as [->|]; [|reflexivity]. now rewrite !plain_un. }
  split; [apply ex_upd; [exact EX|intros E; destruct (H1 E) as [X|X]; auto]|].
  split; [intros E; destruct (H2 E) as [X [Y|Y]]; [apply none_upd; auto|now apply ex_free]|].
  split; [intros E; destruct (H3 E) as [X|[X Y]]; [exists t; now rewrite upd_same|apply some_upd; [rewrite X; discriminate|auto]]|].
  split; [exact V|]. split; [exact ND|]. split; [|split; [|split; [|split]]].
  - intros u. assert (E : (exists w, unparking u (upd (pcs s) t k w) = true) <-> exists w, unparking u (pcs s w) = true) by (split; intros [w W]; exists w; rewrite U in *; exact W).
    rewrite E, <- AS. unfold upd. destruct (Nat.eqb_spec u t) as [->|]; [|reflexivity]. now rewrite (proj1 A1), (proj1 A2).
  - intros x u w. rewrite !U. apply UE.
  - intros u w. rewrite U. apply UQ.
  - intros u. unfold upd. destruct (Nat.eqb_spec u t) as [->|]; [|apply SL]. rewrite <- SL. now rewrite (proj2 A1), (proj2 A2).
  - intros E. destruct (H4 E) as [X|[X|[X Y]]]; [now left|right; exists t; now rewrite upd_same|].
    destruct (LW E) as [Z|Z]; [contradiction|]. right. apply some_upd; [rewrite Y; discriminate|exact Z].
Qed.

Lemma step_inv : forall s t c s', Inv s -> step s t c = Some s' -> Inv s'.
Proof.
  intros s t c s' I H. pose proof I as I0. parts I. unfold step in H.
  assert (VH : holds (pcs s t) = true -> val s <> 0) by (intros E V; rewrite (Z0 V t) in E; discriminate).
  destruct (pcs s t) as [| | | | | | | | | |[x|]] eqn:K.
  - inversion H; subst; clear H. apply go_inv; rewrite ?K; auto; destruct (c =? 0); auto; try discriminate; intros E; destruct (Nat.eq_dec (val s) 2); auto.
  - inversion H; subst; clear H. destruct (Nat.eqb_spec (val s) 0) as [V|V]; apply go_inv; rewrite ?K; auto; try discriminate; try lia.
    + intros E. right. right. split; [lia|reflexivity].
    + intros E. destruct (Nat.eq_dec (val s) 2); auto.
  - destruct (Nat.eqb_spec (val s) 0) as [V|V]; [|destruct (Nat.eqb_spec (val s) 2) as [W|W]]; inversion H; subst; clear H; apply go_inv; rewrite ?K; auto; try discriminate; try lia; try (destruct (c =? 0); auto; discriminate).
    intros E. right. right. split; [lia|reflexivity].
  - inversion H; subst; clear H. destruct (Nat.eqb_spec (val s) 0) as [V|V]; apply go_inv; rewrite ?K; auto; try discriminate; lia.
  - destruct (sl s) eqn:SL'; [discriminate|]. destruct (Nat.eqb_spec (val s) 2) as [W|W]; inversion H; subst; clear H.
    + assert (U : forall x u, unparking x (upd (pcs s) t Ins u) = unparking x (pcs s u)) by (intros x u; unfold upd; destruct (Nat.eqb_spec u t) as [->|]; [now rewrite K|reflexivity]).
      unfold Inv; sf. split; [apply ex_upd; [exact EX|discriminate]|]. split; [lia|]. split; [intros E; apply some_upd; [rewrite K; discriminate|auto]|]. split; [exact V2|].
      split; [exact ND|]. split; [|split; [intros x u w; rewrite !U; apply UE|split; [intros u w; rewrite U; apply UQ|split; [|auto]]]].
      * intros u. assert (E : (exists w, unparking u (upd (pcs s) t Ins w) = true) <-> exists w, unparking u (pcs s w) = true) by (split; intros [w W']; exists w; rewrite U in *; exact W').
        rewrite E, <- AS. unfold upd. destruct (Nat.eqb_spec u t) as [->|]; [now rewrite K|reflexivity].
      * intros u. unfold upd. destruct (Nat.eqb_spec u t) as [->|N]; [cbn; tauto|]. rewrite SL. split; [discriminate|congruence].
    + apply go_inv; rewrite ?K; auto; discriminate.
  - inversion H; subst; clear H.
    assert (ST : sl s = Some t) by (apply SL; now rewrite K).
    assert (NQ : ~ In t (q s)) by (intros X; assert (Y : asleep (pcs s t) = true) by (apply AS; now left); rewrite K in Y; discriminate).
    assert (NU : forall u, unparking t (pcs s u) = false).
    { intros u. destruct (unparking t (pcs s u)) eqn:X; [|reflexivity]. assert (Y : asleep (pcs s t) = true) by (apply AS; right; eauto). rewrite K in Y. discriminate. }
    assert (U : forall x u, unparking x (upd (pcs s) t Asleep u) = unparking x (pcs s u)) by (intros x u; unfold upd; destruct (Nat.eqb_spec u t) as [->|]; [now rewrite K|reflexivity]).
    unfold Inv; sf. split; [apply ex_upd; [exact EX|discriminate]|]. split; [intros E; apply none_upd; [reflexivity|auto]|].
    split; [intros E; apply some_upd; [rewrite K; discriminate|auto]|]. split; [exact V2|].
    split; [|split; [|split; [intros x u w; rewrite !U; apply UE|split; [|split]]]].
    + clear - ND NQ. induction (q s) as [|y l IH]; cbn; [constructor; [intros []|constructor]|]. inversion ND; subst.
      constructor; [rewrite in_app_iff; cbn; intros [X|[X|[]]]; [contradiction|subst; apply NQ; now left]|]. apply IH; [assumption|]. intros X. apply NQ. now right.
    + intros u. rewrite in_app_iff. assert (E : (exists w, unparking u (upd (pcs s) t Asleep w) = true) <-> exists w, unparking u (pcs s w) = true) by (split; intros [w W]; exists w; rewrite U in *; exact W).
      rewrite E. unfold upd. destruct (Nat.eqb_spec u t) as [->|N]; [cbn; tauto|]. rewrite AS. cbn. intuition congruence.
    + intros u w. rewrite U, in_app_iff. cbn. intros X [Y|[Y|[]]]; [exact (UQ _ _ X Y)|]. subst. rewrite NU in X. discriminate.
    + intros u. unfold upd. destruct (Nat.eqb_spec u t) as [->|N]; [cbn; intuition discriminate|]. rewrite SL, ST. split; intros X; [congruence|discriminate].
    + intros _. destruct LW as [X|X]; [right; rewrite ST; discriminate|now left|]. right. apply some_upd; [rewrite K; discriminate|exact X].
  - discriminate.
  - inversion H; subst; clear H. specialize (VH eq_refl). apply go_inv; rewrite ?K; auto; try discriminate; intros E; try lia. destruct (Nat.eq_dec (val s) 2); auto.
  - inversion H; subst; clear H. specialize (VH eq_refl). destruct (Nat.eqb_spec (val s) 1) as [V|V]; apply go_inv; rewrite ?K; auto; try discriminate; try lia.
    intros E. right. right. split; [lia|reflexivity].
  - destruct (sl s) eqn:SL'; [discriminate|]. destruct (q s) as [|x l] eqn:Q; inversion H; subst; clear H.
    + pose proof (go_inv s t (val s) (Unpark None) I0) as G. unfold go_ in G. rewrite Q, SL' in G. apply G; rewrite ?K; auto; try discriminate. intros [E|E]; congruence.
    + inversion ND as [|? ? NX ND']; subst.
      assert (AX : asleep (pcs s x) = true) by (apply AS; left; now left).
      assert (NUX : forall u, unparking x (pcs s u) = false).
      { intros u. destruct (unparking x (pcs s u)) eqn:X; [|reflexivity]. destruct (UQ _ _ X). now left. }
      assert (U : forall y u, u <> t -> unparking y (upd (pcs s) t (Unpark (Some x)) u) = unparking y (pcs s u)) by (intros y u N; now rewrite upd_other).
      assert (UT : forall y, unparking y (upd (pcs s) t (Unpark (Some x)) t) = (x =? y)) by (intros y; now rewrite upd_same).
      unfold Inv; sf. split; [apply ex_upd; [exact EX|discriminate]|]. split; [intros E; apply none_upd; [reflexivity|auto]|].
      split; [intros E; apply some_upd; [rewrite K; discriminate|auto]|]. split; [exact V2|]. split; [exact ND'|].
      split; [|split; [|split; [|split]]].
      * intros u. assert (X : asleep (upd (pcs s) t (Unpark (Some x)) u) = asleep (pcs s u)) by (unfold upd; destruct (Nat.eqb_spec u t) as [->|]; [now rewrite K|reflexivity]).
        rewrite X, AS. cbn [In]. split.
        -- intros [[E|E]|[w W]]; [subst; right; exists t; rewrite UT; apply Nat.eqb_refl|now left|].
           right. exists w. destruct (Nat.eq_dec w t) as [->|N]; [rewrite K in W; discriminate|now rewrite U].
        -- intros [E|[w W]]; [auto|]. destruct (Nat.eq_dec w t) as [->|N]; [rewrite UT in W; apply Nat.eqb_eq in W; auto|]. rewrite U in W by exact N. eauto.
      * intros y u w A B. destruct (Nat.eq_dec u t) as [->|N], (Nat.eq_dec w t) as [->|M]; auto.
        -- rewrite UT in A. apply Nat.eqb_eq in A. subst y. rewrite U, NUX in B by exact M. discriminate.
        -- rewrite UT in B. apply Nat.eqb_eq in B. subst y. rewrite U, NUX in A by exact N. discriminate.
        -- rewrite U in A, B by assumption. exact (UE y u w A B).
      * intros u w A B. destruct (Nat.eq_dec w t) as [->|N]; [rewrite UT in A; apply Nat.eqb_eq in A; subst; contradiction|]. rewrite U in A by exact N. apply (UQ _ _ A). now right.
      * intros u. unfold upd. destruct (Nat.eqb_spec u t) as [->|N]; [|apply SL]. cbn. rewrite <- SL, K. tauto.
      * intros _. right. exists t. now rewrite upd_same.
  - inversion H; subst; clear H.
    assert (AX : asleep (pcs s x) = true) by (apply AS; right; exists t; rewrite K; cbn; apply Nat.eqb_refl).
    assert (XT : x <> t) by (intros ->; rewrite K in AX; discriminate).
    assert (XQ : ~ In x (q s)) by (apply (UQ x t); rewrite K; cbn; apply Nat.eqb_refl).
    assert (HX : holds (pcs s x) = false /\ ins (pcs s x) = false /\ forall y, unparking y (pcs s x) = false) by (destruct (pcs s x); try discriminate AX; auto). destruct HX as (HX & IX & UX).
    set (f := upd (upd (pcs s) t Idle) x Xchg).
    assert (U : forall y u, u <> t -> unparking y (f u) = unparking y (pcs s u)).
    { intros y u N. unfold f, upd. destruct (Nat.eqb_spec u x) as [->|]; [now rewrite UX|]. destruct (Nat.eqb_spec u t); [contradiction|reflexivity]. }
    assert (UT : forall y, unparking y (f t) = false) by (intros y; unfold f; rewrite upd_other by auto; now rewrite upd_same).
    unfold Inv; sf. split; [apply ex_upd; [apply ex_upd; [exact EX|discriminate]|discriminate]|].
    split; [intros E; apply none_upd; [reflexivity|apply none_upd; [reflexivity|auto]]|].
    split; [intros E; apply some_upd; [rewrite upd_other, HX by exact XT; discriminate|apply some_upd; [rewrite K; discriminate|auto]]|].
    split; [exact V2|]. split; [exact ND|]. split; [|split; [|split; [|split]]].
    + intros u. fold f. destruct (Nat.eq_dec u x) as [->|NX].
      * unfold f at 1. rewrite upd_same. cbn. split; [discriminate|]. intros [E|[w W]]; [contradiction|]. destruct (Nat.eq_dec w t) as [->|N]; [rewrite UT in W; discriminate|].
        rewrite U in W by exact N. exfalso. apply N. apply (UE x w t W). rewrite K. cbn. apply Nat.eqb_refl.
      * assert (X : asleep (f u) = asleep (pcs s u)) by (unfold f, upd; destruct (Nat.eqb_spec u x); [contradiction|]; destruct (Nat.eqb_spec u t) as [->|]; [now rewrite K|reflexivity]).
        rewrite X, AS. split; (intros [E|[w W]]; [now left|right; exists w]).
        -- destruct (Nat.eq_dec w t) as [->|N]; [rewrite K in W; cbn in W; apply Nat.eqb_eq in W; congruence|now rewrite U].
        -- destruct (Nat.eq_dec w t) as [->|N]; [rewrite UT in W; discriminate|now rewrite U in W].
    + intros y u w A B. fold f in A, B. destruct (Nat.eq_dec u t) as [->|N]; [rewrite UT in A; discriminate|]. destruct (Nat.eq_dec w t) as [->|M]; [rewrite UT in B; discriminate|].
      rewrite U in A, B by assumption. exact (UE y u w A B).
    + intros u w A. fold f in A. destruct (Nat.eq_dec w t) as [->|N]; [rewrite UT in A; discriminate|]. rewrite U in A by exact N. exact (UQ _ _ A).
    + intros u. unfold f, upd. destruct (Nat.eqb_spec u x) as [->|]; [rewrite <- SL, IX; cbn; tauto|]. destruct (Nat.eqb_spec u t) as [->|]; [rewrite <- SL, K; cbn; tauto|apply SL].
    + intros _. right. exists x. unfold f; now rewrite upd_same.
  - inversion H; subst; clear H. apply go_inv; rewrite ?K; auto; try discriminate; intros E; destruct (Nat.eq_dec (val s) 2); auto.
Qed.
Lemma reach_inv : forall s, reach s -> Inv s.
Proof.
  intros s H. induction H; [|eapply step_inv; eauto]. unfold Inv, init; sf. split; [intros t u; discriminate|]. split; [reflexivity|]. split; [congruence|]. split; [lia|].
  split; [constructor|]. split; [intros t; cbn; split; [discriminate|intros [[]|[u X]]; discriminate]|]. split; [intros x t u; discriminate|]. split; [discriminate|].
  split; [intros t; cbn; intuition discriminate|intros [X|X]; congruence].
Qed.
