(* An initialised mutex is a lock. *)

From Coq Require Import List Bool Arith ZArith Lia.
From Verif.PthreadMutex Require Import Model Spec.
Import ListNotations.

Lemma upd_same : forall A (f : nat -> A) x v, upd f x v x = v.
Proof. intros. unfold upd. now rewrite Nat.eqb_refl. Qed.
Lemma upd_other : forall A (f : nat -> A) x v y, y <> x -> upd f x v y = f y.
Proof. intros. unfold upd. apply Nat.eqb_neq in H. now rewrite H. Qed.

Ltac updc :=
  repeat match goal with
  | |- context [upd _ ?x _ ?x] => rewrite upd_same
  | H : context [upd _ ?x _ ?x] |- _ => rewrite upd_same in H
  | N : ?y <> ?x |- context [upd _ ?x _ ?y] => rewrite (upd_other _ _ x _ y N)
  | N : ?y <> ?x, H : context [upd _ ?x _ ?y] |- _ => rewrite (upd_other _ _ x _ y N) in H
  end.

Ltac who t u := destruct (Nat.eq_dec t u) as [->|?]; updc.

Lemma nodup_snoc : forall (l : list nat) x, NoDup l -> ~ In x l -> NoDup (l ++ [x]).
Proof.
  induction l as [|a l IH]; intros x N I; cbn [app].
  - constructor; [intros []|constructor].
  - inversion N; subst. constructor.
    + rewrite in_app_iff. cbn [In]. intros [Q|[Q|[]]]; [contradiction|]. subst. apply I. left; reflexivity.
    + apply IH; [assumption|]. intros Q. apply I. right; exact Q.
Qed.

Record Inv (s : state) : Prop := {
  i_word : word s = true;
  i_magic : magic s = None;
  i_pc : forall t, match pcs s t with Idle | ToLock _ | Wait _ => True | _ => False end;
  i_queue : forall t, In t (queue s) <-> waiting s t;
  i_nodup : NoDup (queue s);
  i_owner : match owner s with
            | None => rec s = 0%Z /\ queue s = [] /\ free s
            | Some t => rec s = Z.of_nat (held s t) /\ 0 < held s t /\ ~ waiting s t /\
                        forall u, u <> t -> held s u = 0
            end
}.

Lemma inv_start : Inv (start true).
Proof.
  constructor; unfold start, waiting, free; cbn; auto; try constructor.
  - intros [].
  - intros (b & E). discriminate.
Qed.

Lemma inv_excl : forall s, Inv s -> exclusive s.
Proof.
  intros s H t u Ht Hu. pose proof (i_owner s H) as O. destruct (owner s) as [w|].
  - destruct O as (_ & _ & _ & F).
    destruct (Nat.eq_dec t w) as [->|D1]; [|rewrite F in Ht by auto; lia].
    destruct (Nat.eq_dec u w) as [->|D2]; [reflexivity|rewrite F in Hu by auto; lia].
  - destruct O as (_ & _ & F). rewrite F in Ht. lia.
Qed.

Lemma owner_held : forall s, Inv s -> forall t, (owner s = Some t <-> 0 < held s t).
Proof.
  intros s H t. pose proof (i_owner s H) as O. destruct (owner s) as [w|] eqn:E.
  - destruct O as (_ & P & _ & F). split; [intros Q; injection Q as ->; exact P|].
    intros Q. destruct (Nat.eq_dec t w) as [->|D]; [reflexivity|]. rewrite F in Q by auto. lia.
  - destruct O as (_ & _ & F). split; [discriminate|]. rewrite F. lia.
Qed.

Lemma is_me_iff : forall o t, is_me o t = true <-> o = Some t.
Proof.
  intros [x|] t; cbn [is_me]; [|split; discriminate].
  rewrite Nat.eqb_eq. split; [intros ->; reflexivity|congruence].
Qed.

(* A thread that changes between places where it does not wait. *)
Lemma inv_pc : forall s t p, Inv s -> ~ waiting s t ->
  match p with Idle | ToLock _ => True | _ => False end -> Inv (set_pc s t p).
Proof.
  intros s t p [H1 H2 H3 H4 H5 H6] NW HP.
  assert (W : forall u, waiting (set_pc s t p) u <-> waiting s u).
  { intros u. unfold waiting, set_pc; cbn [pcs]. who u t; [|reflexivity].
    split; [intros (b & E); subst p; destruct HP|intros X; destruct (NW X)]. }
  constructor; try assumption.
  - intros u. unfold set_pc; cbn [pcs]. who u t; [destruct p; tauto|apply H3].
  - intros u. rewrite W. apply H4.
  - change (owner (set_pc s t p)) with (owner s). destruct (owner s) as [w|]; [|exact H6].
    destruct H6 as (A & B & C & D). split; [exact A|]. split; [exact B|].
    split; [rewrite W; exact C|exact D].
Qed.

Lemma idle_not_waiting : forall s t, pcs s t = Idle -> ~ waiting s t.
Proof. intros s t E (b & Q). congruence. Qed.

Lemma inv_lock : forall s t b, Inv s -> pcs s t = ToLock b ->
  exists s1 r, do_lock s t b = Ok s1 r /\ Inv s1.
Proof.
  intros s t b H HP. pose proof (inv_excl s H) as X. destruct H as [H1 H2 H3 H4 H5 H6]. unfold do_lock.
  assert (NW : ~ waiting s t) by (intros (c & Q); congruence).
  destruct (is_me (owner s) t) eqn:M.
  - apply is_me_iff in M. rewrite M in *. destruct H6 as (R & P & _ & F).
    do 2 eexists. split; [reflexivity|].
    assert (W : forall u, (exists c, upd (pcs s) t Idle u = Wait c) <-> waiting s u).
    { intros u. unfold waiting. who u t; [|reflexivity]. split; [intros (c & Q); discriminate|intros Q; destruct (NW Q)]. }
    constructor; unfold waiting; cbn [word owner rec queue magic pcs held]; auto.
    + intros u. who u t; auto. apply H3.
    + intros u. rewrite W. apply H4.
    + rewrite W. updc. split; [lia|]. split; [lia|]. split; [exact NW|]. intros u D. updc. auto.
  - destruct (owner s) as [w|] eqn:EO; cbn [is_none negb].
    + rewrite H1. do 2 eexists. split; [reflexivity|].
      assert (D : w <> t) by (intros ->; cbn [is_me] in M; rewrite Nat.eqb_refl in M; discriminate).
      destruct H6 as (R & P & NWw & F).
      assert (W : forall u, (exists c, upd (pcs s) t (Wait b) u = Wait c) <-> (u = t \/ waiting s u)).
      { intros u. unfold waiting. who u t; [split; eauto|]. split; [auto|intros [Q|Q]; [congruence|exact Q]]. }
      constructor; unfold waiting; cbn [word owner rec queue magic pcs held]; auto.
      * intros u. who u t; auto. apply H3.
      * intros u. rewrite W, in_app_iff, H4. cbn [In]. split.
        -- intros [Q|[->|[]]]; auto.
        -- intros [->|Q]; auto.
      * apply nodup_snoc; [exact H5|]. rewrite H4. exact NW.
      * rewrite W. split; [exact R|]. split; [exact P|]. split; [intros [Q|Q]; auto|exact F].
    + destruct H6 as (R & Q & F). do 2 eexists. split; [reflexivity|].
      assert (W : forall u, (exists c, upd (pcs s) t Idle u = Wait c) <-> waiting s u).
      { intros u. unfold waiting. who u t; [|reflexivity]. split; [intros (c & Z); discriminate|intros Z; destruct (NW Z)]. }
      constructor; unfold waiting; cbn [word owner rec queue magic pcs held]; auto.
      * intros u. who u t; auto. apply H3.
      * intros u. rewrite W. apply H4.
      * rewrite W. updc. rewrite F. split; [reflexivity|]. split; [lia|]. split; [exact NW|]. intros u D. updc. auto.
Qed.

Lemma inv_unlock : forall s t s1 r, Inv s -> pcs s t = Idle -> do_unlock s t = Ok s1 r -> Inv s1.
Proof.
  intros s t s1 r H HP E. unfold do_unlock in E.
  destruct (is_me (owner s) t) eqn:M; cbn [negb] in E; [|injection E as <- <-; exact H].
  apply is_me_iff in M. destruct H as [H1 H2 H3 H4 H5 H6]. rewrite M in H6.
  destruct H6 as (R & P & NW & F). cbn [rec] in E.
  destruct (Z.eqb_spec (rec s - 1) 0) as [Z0|Z0]; injection E as <- <-.
  - assert (HT : held s t = 1) by lia.
    unfold pop_node; cbn [queue word owner rec magic pcs held].
    destruct (queue s) as [|u q] eqn:Q.
    + constructor; unfold waiting, free; cbn [word owner rec queue magic pcs held]; auto.
      split; [reflexivity|]. split; [reflexivity|]. intros u. who u t; [rewrite HT; reflexivity|auto].
    + inversion H5 as [|? ? N1 N2]; subst.
      assert (WU : waiting s u) by (apply H4; left; reflexivity).
      assert (D : u <> t) by (intros ->; tauto).
      assert (HU : held s u = 0) by auto.
      assert (W : forall x, (exists c, upd (pcs s) u Idle x = Wait c) <-> (x <> u /\ waiting s x)).
      { intros x. unfold waiting. who x u; [|tauto]. split; [intros (c & Q'); discriminate|tauto]. }
      constructor; unfold waiting; cbn [word owner rec queue magic pcs held]; auto.
      * intros x. who x u; auto. apply H3.
      * intros x. rewrite W. rewrite <- H4. cbn [In]. split.
        -- intros Q'. split; [intros ->; contradiction|auto].
        -- intros [D' [->|Q']]; [congruence|exact Q'].
      * rewrite W. updc. rewrite HU. split; [reflexivity|]. split; [lia|]. split; [tauto|].
        intros x D'. updc. who x t; [rewrite HT; reflexivity|auto].
  - constructor; unfold waiting; cbn [word owner rec queue magic pcs held]; auto.
    rewrite M. updc. split; [lia|]. split; [lia|]. split; [exact NW|]. intros u D. updc. auto.
Qed.

Lemma inv_step : forall s l, Inv s ->
  match step s l with Ok s1 _ => Inv s1 | Undef => False | Stuck => True end.
Proof.
  intros s l H. destruct l as [t|t|t| |t]; cbn [step].
  - destruct (pcs s t) eqn:HP; auto. unfold do_call_lock. rewrite (i_word s H).
    apply inv_pc; auto. apply idle_not_waiting; auto.
  - destruct (pcs s t) eqn:HP; auto. unfold do_try. destruct (_ && _); [exact H|].
    apply inv_pc; auto. apply idle_not_waiting; auto.
  - destruct (pcs s t) eqn:HP; auto. destruct (do_unlock s t) as [s1 r| |] eqn:E; auto.
    + eapply inv_unlock; eauto.
    + unfold do_unlock in E. destruct (negb _); discriminate.
  - unfold do_destroy. destruct (negb _); exact H.
  - unfold do_step. pose proof (i_pc s H t) as HP.
    destruct (pcs s t) as [| | | | |b|b] eqn:EP; try tauto.
    destruct (inv_lock s t b H EP) as (s1 & r & E & H1). rewrite E. exact H1.
Qed.

Lemma inv_run : forall s tr s2, run s tr s2 -> Inv s -> Inv s2.
Proof.
  induction 1 as [s|s l r s1 tr s2 E R IH]; intros H; auto.
  apply IH. pose proof (inv_step s l H) as Q. rewrite E in Q. exact Q.
Qed.
