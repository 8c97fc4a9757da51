From Coq Require Import List Bool Arith Lia.
From Verif.SelectOr Require Import Model Spec Proofs.
Import ListNotations.
(** At most one rendezvous per operation; the body that runs is that of the clause that took part in it; the else body runs only when none did; some body always runs. *)
Theorem C42_one : forall s t, reach s -> plain s t = false -> at_ s t <> Out ->
  length (met s t) <= 1 /\ (forall k, at_ s t = Fin k -> exists u, met s t = [(k, u)]) /\ (at_ s t = FinElse -> met s t = []) /\ at_ s t <> NoBody.
Proof.
  intros s t R P N. destruct (reach_inv s R) as [I _]. pose proof (v_own s I t) as O. unfold own in O. rewrite P in O.
  assert (L : length (met s t) <= 1).
  { destruct (at_ s t); cbn [ownw] in O; try congruence; try (destruct (st s t); try (destruct O; fail)); try (destruct O as (_ & -> & _); cbn; lia); try (destruct O as (-> & _); cbn; lia);
    try (destruct O as [(-> & _)|(u & -> & _)]; cbn; lia); try (destruct O as (_ & _ & u & ->); cbn; lia); try tauto. }
  split; auto. split; [|split]; intros E; rewrite ?E in *; cbn [ownw] in O; try tauto. intros E1. rewrite E1 in O. cbn [ownw] in O. tauto.
Qed.
Print Assumptions C42_one.
(** A rendezvous joins a send and a receive on one channel, and both sides take part in it at once: nothing else is consumed. *)
Theorem C42_meet : forall s t a s1, reach s -> step s t a = Some s1 -> (forall u, at_ s u <> Out -> met s1 u = met s u) \/
  exists k u j d c, nth_error (ops s t) k = Some (d, c) /\ nth_error (ops s u) j = Some (negb d, c) /\ t <> u /\ met s1 t = met s t ++ [(k, u)] /\ met s1 u = met s u ++ [(j, t)] /\ forall v, v <> t -> v <> u -> met s1 v = met s v.
Proof.
  intros s t a s1 R H. destruct (reach_inv s R) as [I HD]. unfold step, next in H. destruct (at_ s t) eqn:E; destruct a; try discriminate.
  { destruct l; [discriminate|]. injection H as <-. left. intros u X. sf. rewrite upd_other; congruence. }
  all: unfold handoff in H; stepd H; sf; auto.
  - right; exists k, n0, n1, b, n. assert (A : In (n0, n1) (q s (negb b) n)) by (rewrite Heql; left; auto). assert (N : t <> n0).
    { intros <-. destruct (v_hand s I t k b n) as (u & j & r & A1 & A2); [rewrite E; auto|auto|]. rewrite A1 in Heql. injection Heql as -> -> ->.
      pose proof (v_list s I _ _ _ _ A) as (_ & _ & A3). rewrite E in A3. destruct A2 as [A2|(_ & _ & _ & _ & A2)]; [destruct (A3 A2); discriminate|rewrite E in A2; discriminate]. }
    apply (v_list s I) in A; destruct A as (A & _). split; [auto|split; [exact A|split; [auto|]]]. rewrite upd_same, (upd_other _ _ n0), upd_same, upd_other by auto. split; [auto|]. split; [auto|]. intros v V1 V2. rewrite !upd_other by auto. auto.
  - right; exists k, n0, n1, b, n. assert (A : In (n0, n1) (q s (negb b) n)) by (rewrite Heql; left; auto). assert (N : t <> n0).
    { intros <-. destruct (v_hand s I t k b n) as (u & j & r & A1 & A2); [rewrite E; auto|auto|]. rewrite A1 in Heql. injection Heql as -> -> ->.
      pose proof (v_list s I _ _ _ _ A) as (_ & _ & A3). rewrite E in A3. destruct A2 as [A2|(_ & _ & _ & _ & A2)]; [destruct (A3 A2); discriminate|rewrite E in A2; discriminate]. }
    apply (v_list s I) in A; destruct A as (A & _). split; [auto|split; [exact A|split; [auto|]]]. rewrite upd_same, (upd_other _ _ n0), upd_same, upd_other by auto. split; [auto|]. split; [auto|]. intros v V1 V2. rewrite !upd_other by auto. auto.
Qed.
Print Assumptions C42_meet.
(** A parked waituntil that has been decided has its wake-up, or the thread that decided it is about to give it. *)
Theorem C42_resumed : forall s t k, reach s -> plain s t = false -> at_ s t = Park -> st s t = Won k -> tok s t = true \/ exists w s1, step s w Go = Some s1 /\ tok s1 t = true /\ exists u, met s1 t = [(k, u)].
Proof.
  intros s t k R P E ST. destruct (reach_inv s R) as [I _]. pose proof (v_own s I t) as O. unfold own in O. rewrite P, E, ST in O. cbn [ownw] in O. destruct O as [(M & B & w & k' & d & c & r & C1 & C2 & C3)|(u & _ & B)]; auto. right.
  assert (N : w <> t) by (intros ->; rewrite E in C1; discriminate). unfold chan in C2.
  exists w. unfold step, handoff. destruct (at_ s w); try discriminate; injection C1 as ->; rewrite C2, C3; eexists; (split; [reflexivity|]); sf; rewrite !upd_same, (upd_other _ _ w) by auto; rewrite M; cbn [app]; eauto.
Qed.
Print Assumptions C42_resumed.
(** An undecided waituntil that is parked waits in the queue of each of its clauses, and none of these has a partner waiting on the other side. *)
Theorem C42_waiting : forall s t j d c, reach s -> plain s t = false -> at_ s t = Park -> st s t = Unsat -> nth_error (ops s t) j = Some (d, c) -> In (t, j) (q s d c) /\ q s (negb d) c = [].
Proof.
  intros s t j d c R P E ST CH. destruct (reach_inv s R) as [I _].
  destruct (v_all s I t (length (ops s t)) j P) as (d' & c' & A & B); auto; [rewrite E; auto|apply nth_error_Some; congruence|]. unfold chan in A. rewrite CH in A. injection A as <- <-. split; auto.
  destruct (v_one s I c) as [X|X]; destruct d; cbn [negb]; auto; rewrite X in B; destruct B.
Qed.
Print Assumptions C42_waiting.
Theorem C42_waiting_plain : forall s t d c, reach s -> plain s t = true -> at_ s t = Park -> tok s t = false -> nth_error (ops s t) 0 = Some (d, c) -> In (t, 0) (q s d c) /\ q s (negb d) c = [].
Proof.
  intros s t d c R P E T CH. destruct (reach_inv s R) as [I _]. pose proof (v_own s I t) as O. unfold own in O. rewrite P, E in O. destruct O as [(_ & _ & d' & c' & A & B)|(u & _ & X)]; [|congruence]. unfold chan in A. rewrite CH in A. injection A as <- <-. split; auto.
  destruct (v_one s I c) as [X|X]; destruct d; cbn [negb]; auto; rewrite X in B; destruct B.
Qed.
Print Assumptions C42_waiting_plain.
(** Queued nodes belong to operations that are under way, each to the clause on that channel, and no node is queued twice: none outlives the stack frame it is in. *)
Theorem C42_nodes : forall s d c t j, reach s -> In (t, j) (q s d c) -> at_ s t <> Out /\ nth_error (ops s t) j = Some (d, c) /\ NoDup (q s d c).
Proof. intros s d c t j R X. destruct (reach_inv s R) as [I _]. split; [|split; [|apply (v_nd s I)]]; apply (v_list s I) in X; destruct X as (A & B & _); auto. intros E. rewrite E in B. destruct B. Qed.
Print Assumptions C42_nodes.
(** Not so: a winner always emerges. waituntil( c << v ) or( x << c ), on one channel: the thread holds the channel's lock forever, finding its own node, whatever the others do. *)
Theorem C42_self_refuted : exists s, reach s /\ plain s 1 = false /\ ops s 1 = [(true, 0); (false, 0)] /\
  forall l s1, run s l = Some s1 -> lk s1 0 = Some 1 /\ (at_ s1 1 = PendL 1 \/ at_ s1 1 = Tog1 1 \/ at_ s1 1 = Tog2 1) /\ exists s2, step s1 1 Go = Some s2.
Proof.
  pose (l0 := [(1, Start [(true, 0); (false, 0)] false false); (1, Go); (1, Go); (1, Go); (1, Go); (1, Go)]).
  destruct (run start l0) as [s|] eqn:E; [|exfalso; revert E; vm_compute; discriminate]. exists s.
  assert (R : reach s) by (eapply run_reach; [constructor|exact E]).
  assert (ST : stuck s). { split; auto. vm_compute in E. injection E as <-. cbn. repeat split; auto. left. auto. }
  split; auto. split; [apply ST|]. split; [apply ST|]. intros l. clear E R. revert s ST. induction l as [|[t a] l IH]; intros s ST s1 H; cbn [run] in H.
  - injection H as <-. destruct ST as (R & P & OPS & Q & L & SP). split; auto. split; [destruct SP as [[-> _]|[[-> _]|[-> _]]]; auto|]. unfold step. destruct SP as [[-> X]|[[-> _]|[-> X]]]; eauto. rewrite OPS. cbn [nth_error negb]. rewrite Q, P, X. eauto.
  - destruct (step s t a) eqn:E; [|discriminate]. eapply IH; [|exact H]. eapply stuck_step; eauto.
Qed.
Print Assumptions C42_self_refuted.
(** a waituntil over two channels and a sender on the second: the second clause's body runs, the first node is withdrawn *)
Example C42_ex : exists s, run start ([(1, Start [(false, 0); (false, 1)] false false)] ++ repeat (1, Go) 6 ++ [(2, Start [(true, 1)] true false)] ++ repeat (2, Go) 3 ++ [(1, Go)]) = Some s /\ at_ s 1 = Fin 1 /\ met s 1 = [(1, 2)] /\ met s 2 = [(0, 1)] /\ q s false 0 = [(1, 0)] /\ q s false 1 = [].
Proof. eexists. split; [vm_compute; reflexivity|]. cbn. auto. Qed.
(** two waituntils meet on channel 1; one with an else clause finds nothing *)
Example C42_ex2 : exists s, run start ([(1, Start [(false, 0); (false, 1)] false false)] ++ repeat (1, Go) 6 ++ [(2, Start [(true, 2); (true, 1)] false true)] ++ repeat (2, Go) 8 ++ [(1, Go); (3, Start [(true, 2)] false true)] ++ repeat (3, Go) 4) = Some s /\
  at_ s 1 = Fin 1 /\ met s 1 = [(1, 2)] /\ at_ s 2 = Fin 1 /\ met s 2 = [(1, 1)] /\ at_ s 3 = FinElse /\ met s 3 = [].
Proof. eexists. split; [vm_compute; reflexivity|]. cbn. auto 8. Qed.
