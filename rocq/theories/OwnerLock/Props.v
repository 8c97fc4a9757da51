From Coq Require Import List Bool Arith Lia.
From Verif.OwnerLock Require Import Spec Model Proofs.
Import ListNotations.

(** Notifying threads hold the lock ([hold] = true); recursive (owner_lock) or not. *)

(** Only one thread holds the lock, and it holds it as many times as the lock counts. *)
Theorem C27_mutual_exclusion : forall multi s, reach multi true s ->
  exclusive (d s) /\ (forall t, 0 < d s t -> owner s = Some t /\ rc s = d s t).
Proof.
  intros multi s H. apply reach_inv in H. parts H.
  assert (X : forall t, 0 < d s t -> owner s = Some t /\ rc s = d s t).
  { intros t D. destruct (T t) as (_ & _ & X). destruct (ts s t) eqn:K; try lia.
    - destruct (is_owner s t) eqn:O; [|lia]. split; [now apply is_owner_true|lia].
    - destruct X as [O X]. split; [now apply is_owner_true|lia]. }
  split; [|exact X]. intros t u D1 D2. apply X in D1. apply X in D2. destruct D1, D2. congruence.
Qed.
Print Assumptions C27_mutual_exclusion.

(** A thread that is running has the lock exactly when it counts at least one acquisition; the lock is free only if
    nobody queues. *)
Theorem C27_owner_counts : forall multi s, reach multi true s ->
  (forall t, ts s t = TRun -> owner s = Some t <-> 0 < d s t) /\ (owner s = None -> q s = [] /\ forall t, d s t = 0).
Proof.
  intros multi s H. apply reach_inv in H. pose proof H as I. parts H. split.
  - intros t K. destruct (T t) as (_ & _ & X). rewrite K in X. split.
    + intros O. rewrite O in IO. rewrite (is_owner_some _ _ _ O), Nat.eqb_refl in X. lia.
    + intros D. destruct (is_owner s t) eqn:O; [now apply is_owner_true|lia].
  - intros O. split; [rewrite O in IO; tauto|]. intros t. now apply own_free.
Qed.
Print Assumptions C27_owner_counts.

(** [unlock] lowers the count by one; the last one frees the lock or hands it to the first queued thread. *)
Theorem C27_unlock : forall multi s t, reach multi true s -> ts s t = TRun -> owner s = Some t ->
  let s' := unlock s t in
  d s' t = d s t - 1 /\
  (1 < d s t -> owner s' = Some t /\ q s' = q s) /\
  (d s t = 1 -> match q s with [] => owner s' = None | x :: l => owner s' = Some x /\ q s' = l /\ queued (ts s' x) = false end).
Proof.
  intros multi s t H K O. apply reach_inv in H. parts H. destruct (T t) as (A & C & X). rewrite K, (is_owner_some _ _ _ O), Nat.eqb_refl in X. rewrite O in IO.
  cbn zeta. unfold unlock; sf. destruct (Nat.eqb_spec (pred (rc s)) 0) as [E|E].
  - assert (NQ : ~ In t (q s)) by (rewrite A, K; discriminate).
    split; [|split; [lia|]].
    + pose proof (pop_other (set_lock s (owner s) (pred (rc s)) (q s) (wc s) (ts s) (upd (d s) t (pred (d s t))) (arr s) (gr s)) t NQ) as P.
      destruct P as (_ & P & _). sf. rewrite P. rewrite upd_same. lia.
    + intros _. unfold pop_node; sf. destruct (q s) as [|x l] eqn:Q; [reflexivity|].
      assert (QX : queued (ts s x) = true) by (apply T; rewrite Q; now left).
      destruct (ts s x); try discriminate QX; sf; rewrite upd_same; auto.
  - sf. rewrite upd_same. split; [lia|]. split; [auto|lia].
Qed.
Print Assumptions C27_unlock.

(** The queue is served first come first served, and a thread is in it exactly once, exactly while it is blocked. *)
Theorem C27_fifo : forall multi s, reach multi true s ->
  fifo (arr s) (gr s) (q s) /\ NoDup (q s) /\ wc s = length (q s) /\ (forall t, In t (q s) <-> queued (ts s t) = true).
Proof.
  intros multi s H. apply reach_inv in H. parts H. split; [exact FA|]. split; [exact ND|]. split; [exact WC|]. intros t. apply T.
Qed.
Print Assumptions C27_fifo.

(** [try_lock] does not block, and succeeds exactly if the lock is free or (recursive lock) already held by the caller. *)
Theorem C27_try_lock : forall multi s t, reach multi true s -> ts s t = TRun ->
  let (s', b) := try_lock multi s t in
  ts s' = ts s /\ q s' = q s /\
  (b = true <-> owner s = None \/ (multi = true /\ owner s = Some t)) /\
  (b = true -> owner s' = Some t /\ d s' t = S (d s t)) /\ (b = false -> s' = s).
Proof.
  intros multi s t H K. apply reach_inv in H. unfold try_lock. destruct (owner s) as [o|] eqn:O.
  - destruct (Nat.eqb_spec o t) as [E|E]; cbn [andb].
    + subst o. destruct multi; sf; rewrite ?upd_same; repeat split; intros; try congruence; try tauto; auto.
      destruct H0 as [H0|[H0 _]]; discriminate.
    + repeat split; intros; try congruence. destruct H0 as [H0|[_ H0]]; congruence.
  - sf. rewrite upd_same, (own_free _ t H O). repeat split; intros; auto; discriminate.
Qed.
Print Assumptions C27_try_lock.

(** [wait] gives the lock up whatever its depth, and returns holding it again at the depth it had; the result says
    whether a notification or the time-out ended it, and each wait ends exactly once. *)
Theorem C27_wait_releases : forall multi s t c, reach multi true s -> ts s t = TW1 c ->
  exists s', step multi true s (ORelease t) = Some s' /\ owner s' <> Some t /\ d s' t = 0 /\ ts s' t = TW2 c (d s t).
Proof.
  intros multi s t c H K. apply reach_inv in H. parts H. destruct (T t) as (A & C & X). rewrite K in X. destruct X as [O D].
  eexists. cbn [step]. rewrite K. split; [reflexivity|]. unfold wait2; sf. rewrite !upd_same.
  assert (NQ : ~ In t (q s)) by (rewrite A, K; discriminate). destruct (pop_other s t NQ) as (_ & _ & P).
  split; [|split; [reflexivity|congruence]]. intros E. rewrite (is_owner_some _ _ _ E), Nat.eqb_refl in P. discriminate.
Qed.
Print Assumptions C27_wait_releases.
Theorem C27_wait_returns : forall multi s t r b, reach multi true s -> ts s t = TWake r b ->
  exists s', step multi true s (OWakeup t) = Some s' /\ owner s' = Some t /\ d s' t = r /\ rc s' = r /\ 0 < r /\ rets s' = rets s ++ [(t, b)].
Proof.
  intros multi s t r b H K. apply reach_inv in H. parts H. destruct (T t) as (A & C & X). rewrite K in X. destruct X as (O & _ & _ & R).
  eexists. cbn [step]. rewrite K. split; [reflexivity|]. unfold wakeup; sf. rewrite upd_same. repeat split; auto. now apply is_owner_true.
Qed.
Print Assumptions C27_wait_returns.
(** The saved depth does not change while waiting. *)
Definition saved (k : tst) : option nat := match k with TW2 _ r | TWQ r _ | TWake r _ => Some r | _ => None end.
Lemma notify_saved : forall s x b t r, saved (ts s t) = Some r -> saved (ts (on_notify s x b) t) = Some r.
Proof.
  intros s x b t r K. unfold on_notify. destruct (ts s x) eqn:X; try exact K. destruct (owner s); sf; unfold upd; destruct (Nat.eqb_spec t x) as [E|E]; try exact K; subst; rewrite X in K; exact K.
Qed.
Lemma notify_list_saved : forall l s c t r, saved (ts s t) = Some r -> saved (ts (notify_list s c l) t) = Some r.
Proof. induction l as [|x l IH]; intros s c t r K; [exact K|]. cbn [notify_list]. apply IH. apply notify_saved. exact K. Qed.
Lemma pop_saved : forall s t r, (In t (q s) -> queued (ts s t) = true) -> saved (ts s t) = Some r -> saved (ts (pop_node s) t) = Some r.
Proof.
  intros s t r A K. unfold pop_node. destruct (q s) as [|x l] eqn:Q; [exact K|].
  destruct (match ts s x with TWQ r' b => (TWake r' b, d s x) | _ => (TRun, 1) end) as [k dx] eqn:E. sf. unfold upd. destruct (Nat.eqb_spec t x) as [N|N]; [|exact K].
  subst. specialize (A (or_introl eq_refl)). destruct (ts s x); try discriminate A; try discriminate K. inversion E; subst. exact K.
Qed.
Theorem C27_wait_depth_kept : forall multi s o s' t r, reach multi true s -> step multi true s o = Some s' -> saved (ts s t) = Some r ->
  saved (ts s' t) = Some r \/ (o = OWakeup t /\ d s' t = r).
Proof.
  intros multi s o s' t r H E K. apply reach_inv in H. parts H. clear IO ND WC NC FA FN B.
  assert (A : In t (q s) -> queued (ts s t) = true) by apply T.
  destruct o as [u|u|u|u c|u|u|u c|u c|u c]; cbn [step] in E.
  6: { destruct (ts s u) eqn:KU; try discriminate. inversion E; subst. unfold wakeup; sf. unfold upd. destruct (Nat.eqb_spec t u) as [N|N]; [|left; exact K].
       subst. right. rewrite KU in K. inversion K. auto. }
  8: { left. assert (E' : s' = timeout s u c) by (destruct (ts s u); congruence). subst s'. unfold timeout. destruct (existsb (Nat.eqb u) (cq s c)); [|exact K].
       now apply notify_saved. }
  all: left; destruct (ts s u) eqn:KU; try discriminate;
    assert (NE : t <> u) by (intros ->; rewrite KU in K; discriminate).
  - destruct (multi || negb (is_owner s u)); inversion E; subst. unfold lock. destruct (owner s) as [o|]; [|exact K]. destruct (o =? u); [destruct multi; exact K|]. sf. now rewrite upd_other.
  - inversion E; subst. unfold try_lock. destruct (owner s) as [o|]; [|exact K]. destruct ((o =? u) && multi); exact K.
  - destruct (is_owner s u); inversion E; subst. unfold unlock; sf. destruct (pred (rc s) =? 0); [|exact K]. apply pop_saved; sf; assumption.
  - destruct (is_owner s u); inversion E; subst. unfold wait1; sf. now rewrite upd_other.
  - inversion E; subst. unfold wait2; sf. rewrite upd_other by exact NE. now apply pop_saved.
  - destruct (is_owner s u); cbn in E; inversion E; subst. unfold notify_one. destruct (cq s c); [exact K|]. now apply notify_saved.
  - destruct (is_owner s u); cbn in E; inversion E; subst. unfold notify_all. cbn [fst]. now apply notify_list_saved.
Qed.
Print Assumptions C27_wait_depth_kept.

(** Every return from [wait] was caused by exactly one removal from the condition's queue, in order, with that result. *)
Theorem C27_wait_result : forall multi s t, reach multi true s ->
  of t (nots s) = of t (rets s) ++ match ts s t with TWQ _ b | TWake _ b => [(t, b)] | _ => [] end.
Proof. intros multi s t H. apply reach_inv in H. parts H. apply FN. Qed.
Print Assumptions C27_wait_result.
(** A thread is in the queue of condition c exactly while it waits on c un-notified, so a notification is never lost. *)
Theorem C27_cond_queue : forall multi s c, reach multi true s ->
  NoDup (cq s c) /\ (forall t, In t (cq s c) <-> (ts s t = TW1 c \/ exists r, ts s t = TW2 c r)) /\ bad s = false.
Proof. intros multi s c H. apply reach_inv in H. parts H. split; [apply NC|]. split; [intros t; apply T|exact B]. Qed.
Print Assumptions C27_cond_queue.
(** notify_one takes the longest waiting thread of the condition and says whether there was one; notify_all takes all. *)
Theorem C27_notify : forall s c,
  (snd (notify_one s c) = negb (match cq s c with [] => true | _ => false end)) /\
  cq (fst (notify_one s c)) c = tl (cq s c) /\
  (nots (fst (notify_one s c)) = nots s ++ map (fun x => (x, true)) (firstn 1 (cq s c))) /\
  cq (fst (notify_all s c)) c = [] /\
  nots (fst (notify_all s c)) = nots s ++ map (fun x => (x, true)) (cq s c).
Proof.
  intros s c.
  assert (NN : forall s x b, nots (on_notify s x b) = nots s ++ [(x, b)]).
  { clear. intros s x b. unfold on_notify. destruct (ts s x); try reflexivity. destruct (owner s); reflexivity. }
  unfold notify_one, notify_all. cbn [fst snd].
  assert (L : forall l s, cq s c = l -> cq (notify_list s c l) c = [] /\ nots (notify_list s c l) = nots s ++ map (fun x => (x, true)) l).
  { induction l as [|x l IH]; intros s0 E; cbn [notify_list map]; [rewrite app_nil_r; auto|].
    destruct (IH (on_notify (set_cq s0 c l) x true)) as [A B]; [rewrite on_notify_cq; sf; apply upd_same|].
    split; [exact A|]. rewrite B, NN. sf. now rewrite <- app_assoc. }
  destruct (L (cq s c) s eq_refl) as [L1 L2].
  split; [destruct (cq s c); reflexivity|]. split; [|split; [|split; [exact L1|exact L2]]].
  - destruct (cq s c) eqn:E; cbn [fst tl]; [exact E|]. rewrite on_notify_cq. sf. apply upd_same.
  - destruct (cq s c); cbn; [now rewrite app_nil_r|]. now rewrite NN.
Qed.
Print Assumptions C27_notify.

Fixpoint go (multi hold : bool) (s : st) (l : list op) : option st :=
  match l with
  | [] => Some s
  | o :: r => match step multi hold s o with Some s' => go multi hold s' r | None => None end
  end.
Lemma go_reach : forall multi hold l s s', reach multi hold s -> go multi hold s l = Some s' -> reach multi hold s'.
Proof.
  induction l as [|o l IH]; intros s s' H E; cbn [go] in E; [inversion E; now subst|].
  destruct (step multi hold s o) as [s1|] eqn:X; [|discriminate]. eapply IH; [|exact E]. eapply rS; eauto.
Qed.

(** Code defect: if the notifier does not hold the lock, it can catch a waiter between enqueuing itself on the
    condition and [on_wait]; [on_notify] then inserts a node the waiter has not set up (locks.cfa:152, 175). *)
Theorem C27_notify_without_lock_refuted : exists s, reach true false s /\ bad s = true.
Proof.
  eexists. split.
  - apply (go_reach true false [OLock 1; OWait 1 0; ONotify 2 0] init); [constructor|reflexivity].
  - reflexivity.
Qed.
Print Assumptions C27_notify_without_lock_refuted.
(** Code defect (release build): a single-acquisition lock locked again by its holder is not counted, so one unlock frees
    it while the thread still believes it holds it once. *)
Theorem C27_single_relock_refuted : exists s, reach false true s /\ owner s = Some 1 /\ ts s 1 = TRun /\
  let s' := unlock (lock false s 1) 1 in d s' 1 = 1 /\ owner s' = None.
Proof.
  eexists. split; [apply (go_reach false true [OLock 1] init); [constructor|reflexivity]|]. repeat split; reflexivity.
Qed.
Print Assumptions C27_single_relock_refuted.

(** Thread 1 holds the lock twice and waits; 2 acquires, 3 queues behind it; 2 notifies, so 1 queues behind 3. *)
Example C27_example :
  option_map (fun s => (owner s, rc s, q s, wc s, rets s, d s 1, gr s))
    (go true true init [OLock 1; OLock 1; OLock 2; OWait 1 0; ORelease 1; OLock 3; ONotify 2 0; OUnlock 2]) = Some (Some 3, 1, [1], 1, [], 0, [2; 3]) /\
  option_map (fun s => (owner s, rc s, q s, wc s, rets s, d s 1, gr s))
    (go true true init [OLock 1; OLock 1; OLock 2; OWait 1 0; ORelease 1; OLock 3; ONotify 2 0; OUnlock 2; OUnlock 3; OWakeup 1]) = Some (Some 1, 2, [], 0, [(1, true)], 2, [2; 3; 1]).
Proof. split; reflexivity. Qed.

(** A time-out ends exactly the wait of its thread, with result false, and does nothing once the thread was notified. *)
Theorem C27_timeout : forall s t c,
  (In t (cq s c) -> nots (timeout s t c) = nots s ++ [(t, false)] /\ ~ In t (cq (timeout s t c) c)) /\
  (~ In t (cq s c) -> timeout s t c = s).
Proof.
  intros s t c. unfold timeout. destruct (existsb (Nat.eqb t) (cq s c)) eqn:E.
  - apply existsb_exists in E. destruct E as (y & Hy & E). apply Nat.eqb_eq in E. subst y. split; [|intros N; contradiction].
    intros _. split.
    + unfold on_notify; sf. destruct (ts s t); try reflexivity. destruct (owner s); reflexivity.
    + rewrite on_notify_cq; sf. rewrite upd_same, filter_In, Nat.eqb_refl. cbn. intros [_ F]. discriminate.
  - split; [|reflexivity]. intros H. exfalso.
    assert (X : existsb (Nat.eqb t) (cq s c) = true) by (apply existsb_exists; exists t; split; [exact H|apply Nat.eqb_refl]). congruence.
Qed.
Print Assumptions C27_timeout.
Example C27_timeout_example :
  option_map (fun s => (owner s, rets s)) (go true true init [OLock 1; OWait 1 0; ORelease 1; OTimeout 1 0; OWakeup 1; OTimeout 1 0]) = Some (Some 1, [(1, false)]).
Proof. reflexivity. Qed.
