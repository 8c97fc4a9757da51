From Coq Require Import List Arith Bool Lia Permutation.
From Verif.ActorQueue Require Import Model Proofs.
From Verif.Actor Require Import Model Spec Proofs.
Import ListNotations.

(* Whatever the workers and the senders do, in whatever order: no null queue is
   dereferenced, nothing outside the arrays and the buffers is touched, no
   assertion fails. *)
Theorem C86_safe : forall c s e o, fine c -> reach c s -> step c s e = Some o -> exists s', o = Ok s'.
Proof.
  intros c s e o F R H. destruct (inv_reach c F s R) as [IS IQ]. destruct e as [r| |w b x y z]; cbn [step] in H.
  - injection H as H. destruct (Q_send c F s r o IQ H) as (s' & E & _). eauto.
  - injection H as <-. eauto.
  - destruct (Q_work c F s w b x y z o IS IQ H) as (s' & E & _). eauto.
Qed.
Print Assumptions C86_safe.

(* An actor's messages are received in the order in which they were sent, none
   twice, none skipped: what was received is a prefix of what was sent. *)
Theorem C86_order : forall c s a, fine c -> reach c s -> exists rest, for_actor a (sent s) = for_actor a (begun s) ++ rest.
Proof. intros c s a F R. destruct (history c F s a (proj2 (inv_reach c F s R))) as (h & H & _). eauto. Qed.
Print Assumptions C86_order.

(* No message is lost or duplicated: each sent one was received, or is in a queue. *)
Theorem C86_nothing_lost : forall c s, fine c -> reach c s -> Permutation (sent s) (begun s ++ flat_map content (cqs s)).
Proof. intros c s F R. exact (proj1 (P_reach c F s R)). Qed.
Print Assumptions C86_nothing_lost.

(* An actor receives one message at a time, whichever workers serve it. *)
Theorem C86_one_at_a_time : forall c s w w' k k' r r', fine c -> reach c s ->
  nth_error (ws s) w = Some k -> nth_error (ws s) w' = Some k' -> receiving k = [r] -> receiving k' = [r'] -> rcv r = rcv r' -> w = w'.
Proof.
  intros c s w w' k k' r r' F R K K' E E' D. pose proof (proj2 (inv_reach c F s R)) as I.
  apply (q_un c s I w w' k k' (tk c (rcv r)) K K').
  - eapply rcv_owner; try eassumption. rewrite E. cbn. rewrite Nat.eqb_refl. discriminate.
  - eapply rcv_owner; try eassumption. rewrite E'. cbn. rewrite D, Nat.eqb_refl. discriminate.
Qed.
Print Assumptions C86_one_at_a_time.

(* All it began it ended, in the same order, but the one it is receiving. *)
Theorem C86_sequential : forall c s a, fine c -> reach c s ->
  for_actor a (begun s) = for_actor a (ended s) ++ for_actor a (flat_map receiving (ws s)) /\ length (for_actor a (flat_map receiving (ws s))) <= 1.
Proof. intros c s a F R. destruct (history c F s a (proj2 (inv_reach c F s R))) as (h & _ & H1 & H2 & _). auto. Qed.
Print Assumptions C86_sequential.

(* When nothing is queued and nobody receives, everything sent was received. *)
Theorem C86_quiet : forall c s a, fine c -> reach c s -> (forall b, In b (cqs s) -> content b = []) -> (forall k, In k (ws s) -> receiving k = []) ->
  for_actor a (sent s) = for_actor a (ended s).
Proof.
  intros c s a F R Q B. destruct (history c F s a (proj2 (inv_reach c F s R))) as (h & H1 & H2 & _ & H4). rewrite H1, H2.
  rewrite H4 by (intros n; unfold cn; destruct (nth_error (cqs s) n) eqn:E; [apply Q; eapply nth_error_In; exact E|reflexivity]).
  rewrite (fm_none _ a receiving (ws s)); [rewrite !app_nil_r; reflexivity|]. intros n k K. rewrite (B k); [reflexivity|eapply nth_error_In; exact K].
Qed.
Print Assumptions C86_quiet.

(* Stealing loses no queue and doubles none: each work queue is in exactly one
   place of the array, or just being put back by one worker. *)
Theorem C86_served : forall c s, fine c -> reach c s -> length (slots s) = nq c /\ Permutation (flat_map some (slots s) ++ flat_map in_hand (ws s)) (seq 0 (nq c)).
Proof. intros c s F R. destruct (inv_reach c F s R) as [I _]. split; [exact (s_ls c s I)|exact (s_tok c s I)]. Qed.
Print Assumptions C86_served.

(* ... so when nobody is swapping no place is empty. *)
Theorem C86_no_gap : forall c s n, fine c -> reach c s -> (forall k, In k (ws s) -> in_hand k = []) -> n < nq c -> exists q, nth_error (slots s) n = Some (Some q) /\ q < nq c.
Proof.
  intros c s n F R B L. destruct (inv_reach c F s R) as [I _]. destruct (nth_error (slots s) n) as [[q|]|] eqn:E.
  - exists q. split; [reflexivity|]. eapply slot_lt; eassumption.
  - destruct (s_gap c s I n E) as (w & k & K & G). pose proof (s_pok c s I w k K) as P. specialize (B k (nth_error_In _ _ K)). unfold gap, in_hand in *.
    destruct (at_ k); try discriminate; cbn [pok] in P; [destruct my; [discriminate|destruct P as (_ & _ & _ & P & _); congruence]|destruct my; [discriminate|destruct P as (_ & _ & P & _); congruence]].
  - apply nth_error_None in E. rewrite (s_ls c s I) in E. lia.
Qed.
Print Assumptions C86_no_gap.

(* Workers never wait for each other, and end only at shutdown. *)
Theorem C86_alive : forall c s w k, fine c -> reach c s -> nth_error (ws s) w = Some k ->
  (at_ k = Exited /\ shut s = true) \/ (exists b x y z s', step c s (Work w b x y z) = Some (Ok s')).
Proof.
  intros c s w k F R K. assert (D : at_ k = Exited \/ at_ k <> Exited) by (destruct (at_ k); auto; right; discriminate). destruct D as [E|N].
  - left. split; [exact E|]. exact (proj2 (P_reach c F s R) w k K E).
  - right. exact (alive c F s w k R K N).
Qed.
Print Assumptions C86_alive.

(* With buf_size 0, which the constructor accepts, the first message sent is
   written outside its buffer. *)
Theorem C86_bufsize_zero_refuted : forall nw nq ns tk r, (forall a, tk a < nq) ->
  step (Conf nw nq 0 ns tk) (init (Conf nw nq 0 ns tk)) (Send r) = Some Undefined.
Proof.
  intros nw nq ns tk r H. cbn [step]. f_equal. unfold send. cbn [Model.tk init wqs cqs Model.nq Model.nw bufsize]. specialize (H (rcv r)).
  rewrite (map_nth_error _ _ _ (nth_error_nth' (seq 0 nq) 0 (n := tk (rcv r)) ltac:(rewrite seq_length; exact H))). rewrite seq_nth by exact H. cbn [cqueue plus].
  rewrite (nth_error_nth' _ (cq_new 0)) by (rewrite repeat_length; lia). rewrite nth_repeat. reflexivity.
Qed.
Print Assumptions C86_bufsize_zero_refuted.

(* -- an execution: two workers, three queues; worker 0 has queues 0 and 1,
   worker 1 has queue 2, and steals queue 0 with the messages in it. -- *)

Fixpoint steps (c : conf) (s : sys) (l : list ev) : option sys :=
  match l with [] => Some s | e :: l => match step c s e with Some (Ok s') => steps c s' l | _ => None end end.

Definition two : conf := Conf 2 3 1 false (fun a => a mod 3).
Definition r1 := R 3 1.  Definition r2 := R 3 2.  Definition r3 := R 6 1.
Definition wk (w : nat) : ev := Work w false 0 0 0.

(* worker 1 finds queue 2 empty twice, then steals place 0 from worker 0 *)
Definition thief : list ev := [Send r1; Send r2; Send r3] ++ repeat (wk 1) 8 ++ repeat (wk 1) 7.

Lemma steps_reach : forall c l s s', reach c s -> steps c s l = Some s' -> reach c s'.
Proof.
  intros c. induction l as [|e l IH]; intros s s' R H; cbn [steps] in H; [injection H as <-; exact R|].
  destruct (step c s e) as [[s1| |]|] eqn:E; try discriminate. eapply IH; [eapply reach_step; eassumption|exact H].
Qed.

Example C86_steal_ex : exists s, steps two (init two) thief = Some s /\ reach two s /\ slots s = [Some 2; Some 1; Some 0].
Proof.
  destruct (steps two (init two) thief) as [s|] eqn:E; [|vm_compute in E; discriminate]. exists s. split; [reflexivity|]. split.
  - eapply steps_reach; [apply reach_init|exact E].
  - vm_compute in E. injection E as <-. reflexivity.
Qed.

(* Worker 0 reads its place before the theft; worker 1 steals the queue, takes the
   messages and begins the first; worker 0 looks at the queue, finds it being
   processed and goes on; a third message to the actor arrives meanwhile. *)
Definition race : list ev := [wk 0] ++ thief ++ repeat (wk 1) 5 ++ [wk 0; wk 0; Send (R 3 9); wk 0].

Example C86_race_ex : exists s, steps two (init two) race = Some s /\ flat_map receiving (ws s) = [r1] /\ begun s = [r1] /\ ended s = [] /\
  map at_ (ws s) = [Top 1; Busy 0 0 r1] /\ map content (cqs s) = [[r2; r3]; []; []; []; [R 3 9]].
Proof. eexists. split; [vm_compute; reflexivity|]. repeat split. Qed.

(* Both workers swap at once: worker 0, stealing from worker 1, takes place 0 out;
   worker 1 finds place 0 empty and picks place 1. *)
Definition both : list ev :=
  repeat (wk 0) 16 ++ [Work 0 false 1 0 0] ++ repeat (wk 0) 4 ++ repeat (wk 1) 8 ++ [wk 1; wk 1; wk 1].

Example C86_swap_ex : exists s, steps two (init two) both = Some s /\ slots s = [None; Some 1; Some 2] /\ flat_map in_hand (ws s) = [0].
Proof. eexists. split; [vm_compute; reflexivity|]. repeat split. Qed.

Example C86_fine_ex : fine two.
Proof. unfold fine, two. cbn [nw nq bufsize tk]. repeat split; try lia. intros a. pose proof (Nat.mod_upper_bound a 3). lia. Qed.
