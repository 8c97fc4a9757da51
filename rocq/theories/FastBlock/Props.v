From Coq Require Import List Bool Arith Lia.
From Verif.FastBlock Require Import Spec Model Proofs.
Import ListNotations.

(** Mutual exclusion and first-come-first-served hand-off, wherever notifications come from. *)
Theorem C28_fast_block_exclusive : forall hold s, reach hold s -> exclusive (d s) /\ (held s = true <-> exists t, d s t = true) /\ fifo (arr s) (gr s) (q s).
Proof.
  intros hold s H. apply reach_inv in H. parts H. split; [exact EX|]. split; [|exact FA]. split; [exact HE|]. intros [t D]. now apply (T t).
Qed.
Print Assumptions C28_fast_block_exclusive.
(** If notifying threads hold the lock, a queued (for instance notified) thread is never left behind by a free lock:
    the next unlock hands the lock to the first of them. *)
Theorem C28_fast_block_no_stranded : forall s, reach true s -> no_stranded (held s) (q s).
Proof. intros s H. apply reach_inv in H. parts H. intros E. now apply HH. Qed.
Print Assumptions C28_fast_block_no_stranded.
Theorem C28_fast_block_handover : forall hold s t x l, reach hold s -> ts s t = FRun -> d s t = true -> q s = x :: l ->
  exists s', step hold s (OUnlock t) = Some s' /\ d s' x = true /\ ts s' x = FRun /\ q s' = l.
Proof.
  intros hold s t x l H K D Q. eexists. cbn [step]. rewrite K, D. split; [reflexivity|]. unfold unlock. rewrite Q. sf. rewrite !upd_same. auto.
Qed.
Print Assumptions C28_fast_block_handover.
(** A wait that returns does so with the lock held. *)
Theorem C28_fast_block_wait_returns_holding : forall hold s o s' t, reach hold s -> step hold s o = Some s' ->
  (exists c, ts s t = FW2 c) \/ ts s t = FQ \/ ts s t = FN1 -> ts s' t = FRun -> d s' t = true.
Proof.
  intros hold s o s' t H E K R. apply reach_inv in H. parts H.
  assert (NR : ts s t <> FRun) by (destruct K as [[c K]|[K|K]]; rewrite K; discriminate).
  destruct o as [u|u|u c|u|u c]; cbn [step] in E.
  - destruct (ts s u) eqn:KU; try discriminate. destruct (d s u); [discriminate|]. inversion E; subst. unfold lock in *. destruct (held s); sf; [|contradiction].
    unfold upd in R. destruct (t =? u); [discriminate|contradiction].
  - destruct (ts s u) eqn:KU; try discriminate. destruct (d s u); [|discriminate]. inversion E; subst. unfold unlock in *. destruct (q s) as [|x l]; sf.
    + unfold upd in R. destruct (Nat.eqb_spec t u); [congruence|contradiction].
    + unfold upd in *. destruct (t =? x); [reflexivity|]. destruct (Nat.eqb_spec t u); [congruence|contradiction].
  - destruct (ts s u) eqn:KU; try discriminate. destruct (d s u); [|discriminate]. inversion E; subst. sf. unfold upd in R. destruct (t =? u); [discriminate|contradiction].
  - destruct (ts s u) eqn:KU; try discriminate; inversion E; subst; unfold unlock in *; destruct (q s) as [|x l]; sf; unfold upd in *.
    + destruct (t =? u); [discriminate|contradiction].
    + destruct (t =? x); [reflexivity|]. destruct (t =? u); [discriminate|contradiction].
    + destruct (t =? u); [discriminate|contradiction].
    + destruct (t =? x); [reflexivity|]. destruct (t =? u); [discriminate|contradiction].
  - destruct (ts s u) eqn:KU; try discriminate. destruct (d s u || negb hold); [|discriminate]. destruct (cq s c) as [|x l]; inversion E; subst; [contradiction|].
    unfold on_notify in R; sf. unfold upd in R. destruct (t =? x); [destruct (ts s x); discriminate|contradiction].
Qed.
Print Assumptions C28_fast_block_wait_returns_holding.

Fixpoint go (hold : bool) (s : st) (l : list op) : option st :=
  match l with [] => Some s | o :: r => match step hold s o with Some s' => go hold s' r | None => None end end.
Lemma go_reach : forall hold l s s', reach hold s -> go hold s l = Some s' -> reach hold s'.
Proof.
  induction l as [|o l IH]; intros s s' H E; cbn [go] in E; [inversion E; now subst|].
  destruct (step hold s o) as [s1|] eqn:X; [|discriminate]. eapply IH; [|exact E]. eapply r_step; eauto.
Qed.
(** Code defect: notified while nobody holds the lock, the waiter is put on the queue of a free lock and is not
    unparked; no further step is possible except by threads that use the lock anew (locks.hfa:495-499). *)
Theorem C28_fast_block_stranded_refuted : exists s, reach false s /\ held s = false /\ q s = [1] /\
  (forall c, cq s c = []) /\ (forall t, t <> 1 -> ts s t = FRun /\ d s t = false) /\
  (forall o s', step false s o = Some s' -> s' = s \/ exists t, o = OLock t).
Proof.
  eexists. split; [apply (go_reach false [OLock 1; OWait 1 0; ORelease 1; ONotify 2 0] init); [constructor|reflexivity]|].
  split; [reflexivity|]. split; [reflexivity|]. split; [intros [|c]; reflexivity|].
  assert (X : forall t, t <> 1 -> upd (upd (upd (fun _ => FRun) 1 (FW1 0)) 1 (FW2 0)) 1 FQ t = FRun) by (intros [|[|t]] N; [reflexivity|congruence|reflexivity]).
  split; [intros [|[|t]] N; [auto|congruence|auto]|].
  intros o s' E. destruct o as [t|t|t c|t|t c]; [right; eauto| | | |]; left.
  - destruct t as [|[|t]]; discriminate.
  - destruct t as [|[|t]]; discriminate.
  - destruct t as [|[|t]]; discriminate.
  - destruct t as [|[|t]]; destruct c; cbn in E; inversion E; reflexivity.
Qed.
Print Assumptions C28_fast_block_stranded_refuted.

(** 1 waits, 2 locks, 3 queues, 2 notifies and unlocks twice over. *)
Example C28_fast_block_example :
  option_map (fun s => (held s, q s, d s 1, d s 3, ts s 1))
    (go true init [OLock 1; OWait 1 0; ORelease 1; OLock 2; OLock 3; ONotify 2 0; OUnlock 2]) = Some (true, [1], false, true, FQ) /\
  option_map (fun s => (held s, q s, d s 1, d s 3, ts s 1))
    (go true init [OLock 1; OWait 1 0; ORelease 1; OLock 2; OLock 3; ONotify 2 0; OUnlock 2; OUnlock 3]) = Some (true, [], true, false, FRun) /\
  (* notified before releasing: the release hands the lock to the same thread *)
  option_map (fun s => (held s, q s, d s 1, ts s 1)) (go false init [OLock 1; OWait 1 0; ONotify 2 0; ORelease 1]) = Some (true, [], true, FRun).
Proof. repeat split; reflexivity. Qed.
