From Coq Require Import List Bool Arith ZArith Lia.
From Verif.SelectAnd Require Import Model Spec Proofs.
Import ListNotations.
Open Scope nat_scope.
(** C73. No wakeup is lost: when the thread is parked and no waker is at work, every clause that has been satisfied has been run, and the clauses satisfied so far do not complete the statement *)
Theorem C73_sleep : forall c s, reach c s -> at_ s = Park -> tok s = false -> quiet s ->
  (forall i, i < n c -> st s i <> SAT) /\ prd c (map (fun i => met (st s i)) (seq 0 (n c))) = false.
Proof.
  intros c s R P T Q. pose proof (reach_inv _ _ R) as I.
  assert (W : forall i, nd s i <> Wake) by (intros i E; specialize (Q i); rewrite E in Q; discriminate).
  destruct (I_park _ _ I P T W) as [_ L].
  assert (N : forall i, i < n c -> st s i <> SAT).
  { intros i LT E. pose proof (lefts_zero _ _ L i LT) as Z0. unfold left in Z0. rewrite E, P in Z0. specialize (Q i). destruct (nd s i); try discriminate. }
  split; auto. pose proof (I_prd _ _ I (or_intror P)) as C. unfold complete in C. rewrite <- C. f_equal. apply map_ext_in. intros i H. apply in_seq in H. specialize (N i ltac:(lia)). destruct (st s i); auto. congruence.
Qed.
Print Assumptions C73_sleep.
(** the thread is unparked only when it is parked or about to park, and once *)
Theorem C73_unpark : forall c s, reach c s ->
  (tok s = true -> at_ s = Park) /\ (forall i, nd s i = Wake -> at_ s = Park /\ tok s = false /\ forall j, nd s j = Wake -> j = i).
Proof.
  intros c s R. pose proof (reach_inv _ _ R) as I. split.
  - intros T. apply (I_tok _ _ I T).
  - intros i W. destruct (I_wake _ _ I i W) as [A [_ [B C]]]. auto.
Qed.
Print Assumptions C73_unpark.
(** nothing is ever stuck except in the state of C73_sleep: otherwise the waiter or a waker can take a step *)
Theorem C73_progress : forall c s, reach c s -> at_ s <> Done ->
  (exists s1, step c s Go = Some s1) \/ (exists i s1, step c s (Waker i) = Some s1) \/ (at_ s = Park /\ tok s = false /\ quiet s).
Proof.
  intros c s R N. pose proof (reach_inv _ _ R) as I.
  assert (W : forall i, busy (nd s i) = true -> exists s1, step c s (Waker i) = Some s1) by (intros i B; cbn [step]; destruct (nd s i); try discriminate; eauto).
  destruct (at_ s) as [k|k| | | |i|i|i| |i|i|i|] eqn:AT; try contradiction; try (left; cbn [step]; rewrite AT; eauto; fail).
  - destruct (tok s) eqn:T; [left; cbn [step]; rewrite AT, T; eauto|].
    assert (D : forall k, (exists i, i < k /\ busy (nd s i) = true) \/ forall i, i < k -> busy (nd s i) = false).
    { induction k; [right; lia|]. destruct IHk as [[i [A B]]|A]; [left; exists i; split; [lia|auto]|]. destruct (busy (nd s k)) eqn:B; [left; exists k; auto|]. right. intros i L. destruct (Nat.eq_dec i k) as [->|]; auto. apply A. lia. }
    destruct (D (n c)) as [[i [_ B]]|A]; [right; left; exists i; auto|]. right. right. repeat split. intros i. destruct (busy (nd s i)) eqn:B; auto.
    destruct (known c s i I) as [_ [_ L]]; [intros E; rewrite E in B; discriminate|]. rewrite A in B by auto. discriminate.
  - destruct (kd c i) eqn:K; [left; cbn [step]; rewrite AT, K; eauto|]. destruct (busy (nd s i)) eqn:B; [right; left; exists i; auto|]. left. cbn [step]. rewrite AT, K, B. eauto.
  - destruct (kd c i) eqn:K; [left; cbn [step]; rewrite AT, K; eauto|]. destruct (busy (nd s i)) eqn:B; [right; left; exists i; auto|]. left. cbn [step]. rewrite AT, K, B. eauto.
Qed.
Print Assumptions C73_progress.
(** the statement ends only when the clauses that have run complete it, or through its else clause; the else clause runs only if they do not *)
Theorem C73_ends : forall c s, reach c s ->
  (els c = false -> at_ s = Done -> prd c (map (fun i => is_run (st s i)) (seq 0 (n c))) = true) /\
  (at_ s = ElseB -> els c = true /\ prd c (map (fun i => is_run (st s i)) (seq 0 (n c))) = false).
Proof.
  intros c s R. pose proof (reach_inv _ _ R) as I. split.
  - intros E D. pose proof (I_end _ _ I E) as H. rewrite D in H. exact H.
  - intros E. pose proof (I_els _ _ I) as H. rewrite E in H. exact H.
Qed.
Print Assumptions C73_ends.
(** every clause runs at most once, a disabled one never; a clause that counts as run has run once *)
Theorem C73_once : forall c s, reach c s -> forall i,
  ran s i <= 1 /\ (en c i = false -> ran s i = 0) /\ (en c i = true -> st s i = RUN -> ran s i = 1) /\ (ran s i = 1 -> st s i <> UNSAT).
Proof.
  intros c s R i. pose proof (reach_inv _ _ R) as I. destruct (en c i) eqn:E.
  - pose proof (I_ran _ _ I i E) as H. destruct (st s i); [| |]; repeat split; intros; try discriminate; try lia; destruct (kd c i); try lia; destruct (i <? find c (at_ s)); lia.
  - destruct (I_new _ _ I i (or_intror E)) as [_ H]. rewrite H. repeat split; intros; lia.
Qed.
Print Assumptions C73_once.
(** an operation on a channel that took place is never dropped: at the end its clause has run exactly if it was satisfied *)
Theorem C73_kept : forall c s i, reach c s -> at_ s = Done -> i < n c -> en c i = true -> kd c i = Channel -> ran s i = if met (st s i) then 1 else 0.
Proof.
  intros c s i R D L E K. pose proof (reach_inv _ _ R) as I. rewrite (I_ran _ _ I i E), D, K. cbn [find]. destruct (st s i); auto. apply Nat.ltb_lt in L. rewrite L. reflexivity.
Qed.
Print Assumptions C73_kept.
(** at the end no channel still lists a node of the statement and no thread using a channel is still at work on one. Missing: futures, see C73_frame_refuted *)
Theorem C73_frame_partial : forall c s i, reach c s -> at_ s = Done -> i < n c -> kd c i = Channel -> busy (nd s i) = false /\ nd s i <> Listed.
Proof. intros c s i R D L K. pose proof (reach_inv _ _ R) as I. apply (I_cls _ _ I i); auto. right. left. rewrite D. exact L. Qed.
Print Assumptions C73_frame_partial.
Definition both (k : kind) : cfg := {| n := 2; en := fun _ => true; pre := fun _ => false; kd := fun _ => k; els := false; prd := forallb (fun b => b) |}.
(** waituntil( f0 ) and waituntil( f1 ): f0's fulfilling thread has taken the node and set the status; f1 is fulfilled, so the waiter does not park, runs both and leaves; then f0's thread adds to the counter of a frame that is gone *)
Definition leave_early : list act := [Go; Go; Go; Take 0; Waker 0; Take 1; Waker 1; Waker 1; Go; Go; Go; Go; Go; Go; Go; Go; Go; Go; Go; Go; Go].
Theorem C73_frame_refuted : ~ forall c s i, reach c s -> at_ s = Done -> busy (nd s i) = false.
Proof.
  intros H. destruct (run (both Future) (start (both Future)) leave_early) as [s|] eqn:E; [|vm_compute in E; discriminate].
  assert (A : at_ s = Done /\ busy (nd s 0) = true) by (vm_compute in E; injection E as <-; vm_compute; split; reflexivity).
  destruct A as [A B]. rewrite (H (both Future) s 0) in B; [discriminate| |exact A]. apply (run_reach _ leave_early (start (both Future))); [apply reach_start|exact E].
Qed.
Print Assumptions C73_frame_refuted.
Definition view (s : option state) := match s with Some s => Some (at_ s, cnt s, tok s, map (st s) [0; 1], map (nd s) [0; 1], map (ran s) [0; 1]) | None => None end.
(** parks, is woken by the first channel, runs it, parks again, is woken by the second *)
Example two_wakeups :
  let l1 := [Go; Go; Go; Go; Go; Take 0; Waker 0; Waker 0] in
  let l2 := l1 ++ [Waker 0; Go; Go; Go; Go; Go; Go; Go; Go] in
  let l3 := l2 ++ [Take 1; Waker 1; Waker 1; Waker 1; Go; Go; Go; Go; Go; Go; Go; Go; Go; Go] in
  view (run (both Channel) (start (both Channel)) l1) = Some (Park, 0%Z, false, [SAT; UNSAT], [Wake; Listed], [0; 0]) /\
  view (run (both Channel) (start (both Channel)) l2) = Some (Park, (-1)%Z, false, [RUN; UNSAT], [Off; Listed], [1; 0]) /\
  view (run (both Channel) (start (both Channel)) l3) = Some (Done, 0%Z, false, [RUN; RUN], [Off; Off], [1; 1]).
Proof. vm_compute. auto. Qed.
(** with channels the waiter waits for the lock the waker still holds *)
Example locked_out : run (both Channel) (start (both Channel)) leave_early = None.
Proof. vm_compute. reflexivity. Qed.
(** one of two channels is enough (with a third clause this would be no special case): the other is satisfied while the first one runs, and is run on the way out *)
Example late : let c := {| n := 2; en := fun _ => true; pre := fun _ => false; kd := fun _ => Channel; els := false; prd := existsb (fun b => b) |} in
  view (run c (start c) [Now; Go; Go; Go; Go; Go; Go; Go; Take 1; Go; Waker 1; Waker 1; Go; Go; Go; Go; Go; Go; Go]) = Some (Done, 1%Z, false, [RUN; SAT], [NotReg; Off], [1; 1]).
Proof. vm_compute. reflexivity. Qed.
