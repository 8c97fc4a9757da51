From Coq Require Import List Bool Arith Lia.
From Verif.BlockSpin Require Import Spec Model Proofs.
Import ListNotations.

(** Holding the lock: inside the critical section, or in [wait] before it is released. *)
Definition holds (s : st) (t : nat) : bool := match ts s t with BUnl | BHold | BW1 _ | BNQ | BNS => true | _ => false end.

Theorem C28_block_spin_exclusive : forall s, reach s -> exclusive (holds s) /\ (oh s = true <-> exists t, holds s t = true).
Proof.
  intros s H. apply reach_inv in H. parts H. split; [exact EO|]. split; [exact HO|]. intros [t D]. now apply (T t).
Qed.
Print Assumptions C28_block_spin_exclusive.
Theorem C28_block_spin_fifo : forall s, reach s -> fifo (arr s) (gr s) (q s) /\ NoDup (q s) /\ (forall t, In t (q s) <-> queued (ts s t) = true).
Proof. intros s H. apply reach_inv in H. parts H. split; [exact FA|]. split; [exact ND|]. intros t. apply T. Qed.
Print Assumptions C28_block_spin_fifo.
(** A queued thread, notified or not, is never left behind: some thread owns the inner lock, and that thread can take a
    step that changes the state unless it is spinning for a holder of the lock, which can itself continue. *)
Theorem C28_block_spin_progress : forall s, reach s -> q s <> [] ->
  exists t, inner (ts s t) = true /\
    ((exists s', step s (OStep t) = Some s' /\ s' <> s) \/ (exists s', step s (ORelease t) = Some s') \/
     (exists u, holds s u = true /\ (ts s u = BHold \/ exists s', step s (ORelease u) = Some s'))).
Proof.
  intros s H Q. apply reach_inv in H. parts H. destruct (ih s) eqn:E; [|destruct Q; auto]. destruct (HI eq_refl) as [t I]. exists t. split; [exact I|].
  destruct (ts s t) eqn:K; try discriminate I.
  - (* spinning *) destruct (oh s) eqn:O.
    + right. right. destruct (HO eq_refl) as [u U]. exists u. split; [exact U|].
      destruct (ts s u) eqn:KU; try discriminate U.
      * now left.
      * exfalso. assert (t = u) by (apply EI; [rewrite K|rewrite KU]; reflexivity). congruence.
      * right. cbn [step]. rewrite KU. eauto.
      * right. cbn [step]. rewrite KU. eauto.
      * right. cbn [step]. rewrite KU. eauto.
    + left. cbn [step]. rewrite K, O. eexists. split; [reflexivity|]. intros F. apply (f_equal (fun z => ts z t)) in F. unfold setk in F; sf. rewrite upd_same in F. congruence.
  - left. cbn [step]. rewrite K. eexists. split; [reflexivity|]. intros F. apply (f_equal (fun z => ts z t)) in F. unfold seth in F; sf. rewrite upd_same in F. congruence.
  - left. cbn [step]. rewrite K. eexists. split; [reflexivity|]. intros F. apply (f_equal (fun z => q z)) in F. unfold inner_unlock, setk in F; sf.
    destruct (q s) as [|x l]; [congruence|]. sf. apply (f_equal (@length nat)) in F. cbn in F. lia.
  - right. left. cbn [step]. rewrite K. eauto.
Qed.
Print Assumptions C28_block_spin_progress.
(** A notified thread is queued or made owner of the inner lock, whoever notifies and whether or not the lock is held. *)
Theorem C28_block_spin_notified : forall s c x l, reach s -> cq s c = x :: l -> forall t, may_notify (ts s t) = true ->
  exists s', step s (ONotify t c) = Some s' /\ cq s' c = l /\ (In x (q s') \/ inner (ts s' x) = true).
Proof.
  intros s c x l H C t M. apply reach_inv in H. parts H. cbn [step]. rewrite M, C. eexists. split; [reflexivity|]. unfold on_notify; sf.
  assert (KX : ts s x = BW1 c \/ ts s x = BW2 c) by (apply T; rewrite C; now left).
  destruct (ih s); sf; rewrite !upd_same; (split; [reflexivity|]).
  - left. apply in_snoc. now right.
  - right. destruct KX as [E|E]; rewrite E; reflexivity.
Qed.
Print Assumptions C28_block_spin_notified.

Fixpoint go (s : st) (l : list op) : option st :=
  match l with [] => Some s | o :: r => match step s o with Some s' => go s' r | None => None end end.
(** 1 waits; 2 notifies while nobody holds the lock; 1 comes back holding it. *)
Example C28_block_spin_example :
  option_map (fun s => (ih s, oh s, q s, ts s 1))
    (go init [OLock 1; OStep 1; OStep 1; OStep 1; OWait 1 0; ORelease 1; ONotify 2 0; OLock 3; OStep 1; OStep 1]) = Some (true, true, [3], BUnl) /\
  option_map (fun s => (ih s, oh s, q s, ts s 1, ts s 3))
    (go init [OLock 1; OStep 1; OStep 1; OStep 1; OWait 1 0; ORelease 1; ONotify 2 0; OLock 3; OStep 1; OStep 1; OStep 1; OStep 3]) = Some (true, true, [], BHold, BSpin).
Proof. split; reflexivity. Qed.
