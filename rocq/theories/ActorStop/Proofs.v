From Coq Require Import List Arith ZArith Bool Lia.
From Verif.Park Require Import Model.
From Verif.ActorStop Require Import Model Spec.
Import ListNotations.
Open Scope nat_scope.

(* -- in all executions -- *)

Record base (s : st) : Prop := { b_nd : NoDup (live s); b_lt : forall a, In a (live s) -> a < next s; b_ct : count s = length (live s) }.

Lemma remove_len : forall a l, NoDup l -> In a l -> S (length (remove Nat.eq_dec a l)) = length l.
Proof.
  intros a. induction l as [|x l IH]; intros N H; [destruct H|]. inversion N; subst. cbn [remove]. destruct (Nat.eq_dec a x) as [->|D].
  - rewrite notin_remove by assumption. reflexivity.
  - cbn [length]. f_equal. apply IH; [assumption|]. destruct H; [congruence|assumption].
Qed.

Lemma remove_nodup : forall a l, NoDup l -> NoDup (remove Nat.eq_dec a l).
Proof.
  intros a. induction l as [|x l IH]; intros N; [constructor|]. inversion N; subst. cbn [remove]. destruct (Nat.eq_dec a x); [apply IH; assumption|].
  constructor; [|apply IH; assumption]. intros I. apply in_remove in I. tauto.
Qed.

Lemma ex_in : forall a l, existsb (Nat.eqb a) l = true <-> In a l.
Proof. intros a l. rewrite existsb_exists. split; [intros (x & I & E); apply Nat.eqb_eq in E; congruence|intros I; exists a; rewrite Nat.eqb_refl; auto]. Qed.

Lemma base_create : forall s, base s -> base (create s).
Proof.
  intros s []. constructor; cbn [create live next count].
  - constructor; [|assumption]. intros I. specialize (b_lt0 _ I). lia.
  - intros a [<-|I]; [lia|]. specialize (b_lt0 _ I). lia.
  - cbn. congruence.
Qed.

Lemma step_base : forall s e s', base s -> step s e = Some s' -> base s'.
Proof.
  intros s e s' B H. assert (K : forall n c o t m b f, n = next s -> c = count s -> base (St (live s) n c o t m b f)) by (intros; subst; destruct B; constructor; auto).
  assert (T : forall a, In a (live s) -> forall o t m b f, base (St (remove Nat.eq_dec a (live s)) (next s) (count s - 1) o t m b f)).
  { intros a I o t m b f. destruct B. constructor; cbn [live next count]; [apply remove_nodup; assumption|intros x X; apply in_remove in X; apply b_lt0; tauto|].
    pose proof (remove_len a (live s) b_nd0 I). lia. }
  unfold step in H. destruct e, (main s) eqn:M; try discriminate;
    try (injection H as <-; first [apply K; reflexivity|apply base_create; exact B]; fail);
    try (destruct (existsb (Nat.eqb a) (live s)) eqn:E; [|discriminate]; apply ex_in in E; injection H as <-; first [apply T; exact E|apply base_create; exact B]; fail).
  all: try (destruct (owed s); [discriminate|]; injection H as <-; unfold unpark; cbn; destruct (thd s); apply K; reflexivity).
Qed.

Lemma any_base : forall s, any s -> base s.
Proof. intros s A. induction A; [constructor; cbn; auto; [constructor|tauto]|]. eapply step_base; eassumption. Qed.

(* -- in careful ones -- *)

Record inv (s : st) : Prop := {
  i_b : base s;
  i_w : main s <> Wrong;
  i_thd : main s = Idle -> live s = [] /\ owed s = 0 /\ ticket s = RUNNING;
  i_on : main s <> Idle -> thd s = true;
  i_fr : fresh s = true -> live s = [];
  i_live : main s <> Idle -> live s <> [] \/ fresh s = true -> owed s = 0 /\ match main s with Out | Switch => ticket s = RUNNING | Parked => ticket s = BLOCKED | _ => False end;
  i_dead : main s <> Idle -> live s = [] -> fresh s = false ->
    match main s with
    | Out | Switch => (owed s = 1 /\ ticket s = RUNNING) \/ (owed s = 0 /\ ticket s = UNBLOCK)
    | Parked => owed s = 1 /\ ticket s = BLOCKED
    | Ready | Back => owed s = 0 /\ ticket s = RUNNING
    | _ => False
    end
}.

Lemma inv_init : inv init.
Proof. constructor; cbn; try congruence; auto. constructor; cbn; auto; [constructor|tauto]. Qed.

Lemma inv_create : forall s, inv s -> live s <> [] \/ fresh s = true -> main s <> Idle -> inv (create s).
Proof.
  intros s I H M. destruct I. constructor; cbn [create live next count owed ticket main thd fresh]; auto; try congruence.
  - apply base_create. assumption.
Qed.

Lemma step_inv : forall s e s', inv s -> careful s e -> step s e = Some s' -> inv s'.
Proof.
  intros s e s' I C H. pose proof (step_base _ _ _ (i_b _ I) H) as B. pose proof I as [].
  unfold step in H. destruct e.
  - destruct (main s) eqn:M; try discriminate. injection H as <-. destruct (i_thd0 eq_refl) as (L & O & T). constructor; cbn; auto; try congruence.
  - destruct (main s) eqn:M; try discriminate. injection H as <-. apply inv_create; [exact I|apply C; reflexivity|congruence].
  - assert (X : In a (live s) /\ s' = create s).
    { destruct (existsb (Nat.eqb a) (live s)) eqn:E; [apply ex_in in E|destruct (main s); discriminate]. split; [exact E|]. destruct (main s); try discriminate; injection H as <-; reflexivity. }
    destruct X as [X ->]. apply inv_create; [exact I|left; intros E; rewrite E in X; exact X|]. intros M. destruct (i_thd0 M) as (L & _). rewrite L in X. exact X.
  - assert (X : In a (live s) /\ s' = St (remove Nat.eq_dec a (live s)) (next s) (count s - 1) (if count s - 1 =? 0 then S (owed s) else owed s) (ticket s) (main s) (thd s) (fresh s)).
    { destruct (existsb (Nat.eqb a) (live s)) eqn:E; [apply ex_in in E|destruct (main s); discriminate]. split; [exact E|]. destruct (main s); try discriminate; injection H as <-; reflexivity. }
    destruct X as [X ->]. assert (NL : live s <> []) by (intros E; rewrite E in X; exact X).
    assert (F : fresh s = false) by (destruct (fresh s); [rewrite (i_fr0 eq_refl) in NL; congruence|reflexivity]).
    assert (M : main s <> Idle) by (intros M; destruct (i_thd0 M); congruence).
    destruct (i_live0 M (or_introl NL)) as [O T]. assert (CT : count s - 1 = length (remove Nat.eq_dec a (live s))) by (destruct i_b0; pose proof (remove_len a _ b_nd0 X); lia).
    constructor; cbn [live next count owed ticket main thd fresh]; auto; try congruence.
    + intros _ [L|F']; [|congruence]. rewrite CT, O. destruct (remove Nat.eq_dec a (live s)); [congruence|]. cbn [length Nat.eqb]. split; [reflexivity|exact T].
    + intros _ L _. rewrite CT, O, L. cbn [length Nat.eqb]. destruct (main s); try contradiction; auto.
  - destruct (owed s) as [|n] eqn:O; [destruct (main s); discriminate|].
    assert (X : s' = unpark (St (live s) (next s) (count s) n (ticket s) (main s) (thd s) (fresh s))) by (destruct (main s); try discriminate; injection H as <-; reflexivity). subst s'.
    assert (M : main s <> Idle) by (intros M; destruct (i_thd0 M) as (_ & O' & _); congruence).
    assert (L : live s = []). { destruct (live s) eqn:L; [reflexivity|]. destruct (i_live0 M) as [O' _]; [left; congruence|congruence]. }
    assert (F : fresh s = false). { destruct (fresh s) eqn:F; [|reflexivity]. destruct (i_live0 M) as [O' _]; [auto|congruence]. }
    specialize (i_dead0 M L F). unfold unpark in *. cbn [thd ticket] in *. rewrite (i_on0 M) in *.
    destruct (main s) eqn:MM; try contradiction; try congruence.
    + destruct i_dead0 as [[O1 T]|[O1 _]]; [|lia]. rewrite T in *. cbn in *. constructor; cbn; auto; try congruence; try (intros _ [L'|F']; congruence); try (intros; right; split; [lia|reflexivity]).
    + destruct i_dead0 as [[O1 T]|[O1 _]]; [|lia]. rewrite T in *. cbn in *. constructor; cbn; auto; try congruence; try (intros _ [L'|F']; congruence); try (intros; right; split; [lia|reflexivity]).
    + destruct i_dead0 as [O1 T]. rewrite T in *. cbn in *. constructor; cbn; auto; try congruence; try (intros _ [L'|F']; congruence); try (intros; split; [lia|reflexivity]).
    + lia.
    + lia.
  - destruct (main s) eqn:M; try discriminate. injection H as <-. constructor; cbn [with_main live next count owed ticket main thd fresh]; auto; try congruence.
    + intros _. apply i_on0. discriminate.
    + intros _ D. apply i_live0; [discriminate|exact D].
    + intros _ L F. apply i_dead0; auto; discriminate.
  - destruct (main s) eqn:M; try discriminate. injection H as <-.
    assert (D : (live s <> [] \/ fresh s = true) \/ (live s = [] /\ fresh s = false)) by (destruct (live s), (fresh s); auto; left; left; congruence).
    destruct D as [D|[L F]].
    + destruct (i_live0 ltac:(discriminate) D) as [O T]. rewrite T in *. cbn in *. constructor; cbn; auto; try congruence; try (intros _; apply i_on0; discriminate). intros; destruct D; congruence.
    + destruct (i_dead0 ltac:(discriminate) L F) as [[O T]|[O T]]; rewrite T in *; cbn in *; (constructor; cbn; auto; try congruence; try (intros _; apply i_on0; discriminate); intros _ [L'|F']; congruence).
  - destruct (main s) eqn:M; try discriminate. injection H as <-. constructor; cbn [with_main live next count owed ticket main thd fresh]; auto; try congruence.
    + intros _. apply i_on0. discriminate.
    + intros _ D. destruct (i_live0 ltac:(discriminate) D) as [_ []].
    + intros _ L F. apply i_dead0; auto; discriminate.
  - destruct (main s) eqn:M; try discriminate. injection H as <-.
    assert (D : (live s <> [] \/ fresh s = true) \/ (live s = [] /\ fresh s = false)) by (destruct (live s), (fresh s); auto; left; left; congruence).
    destruct D as [D|[L F]]; [destruct (i_live0 ltac:(discriminate) D) as [_ []]|]. destruct (i_dead0 ltac:(discriminate) L F) as [O T].
    constructor; cbn; auto; try congruence.
Qed.

Lemma reach_inv : forall s, reach s -> inv s.
Proof. intros s R. induction R; [apply inv_init|]. eapply step_inv; eassumption. Qed.
