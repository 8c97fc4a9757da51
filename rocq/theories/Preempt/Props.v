From Coq Require Import List Bool Arith Lia.
From Verif.Preempt Require Import Model Spec Proofs.
Import ListNotations.
Section R.
Variables (limit : nat) (prog : nat -> list instr).
Definition reachable (s : st) : Prop := 1 < limit /\ (forall t, proper limit 0 (prog t)) /\ exists l, run limit l (init prog) = Next s.
Lemma reach_inv s : reachable s -> inv limit s.
Proof. intros [L [P [l E]]]. pose proof (run_inv limit L l _ (inv_init limit L prog P)) as G. now rewrite E in G. Qed.
End R.
(** Whatever the threads, the signals and the scheduling, no check fails *)
Theorem C104_no_abort : forall limit prog l, 1 < limit -> (forall t, proper limit 0 (prog t)) -> run limit l (init prog) <> Abort.
Proof. intros limit prog l L P E. pose proof (run_inv limit L l _ (inv_init limit L prog P)) as G. now rewrite E in G. Qed.
Print Assumptions C104_no_abort.
(** The disable_count of a kernel thread is the number of open calls of disable_interrupts of the thread it runs, wherever these calls were made; preemption is disabled while there are any, and enabled otherwise *)
Theorem C104_nesting : forall limit prog s k t i, reachable limit prog s -> runs s k t i ->
  count (kts s k) = dep s t /\ (0 < dep s t -> enabled (kts s k) = false) /\ (dep s t = 0 -> nopre i = false -> enabled (kts s k) = true).
Proof.
  intros limit prog s k t i R [E [c Ec]]. pose proof (reach_inv _ _ _ R) as H. destruct (i_run _ _ H k t E) as [_ F]. rewrite Ec in F. destruct F as [_ [Hc [_ [He _]]]]. split; [exact Hc|]. split.
  - intros P. destruct (dep s t) eqn:D; [lia|]. destruct i; exact He.
  - intros D N. rewrite D in He. destruct i; try discriminate; exact He.
Qed.
Print Assumptions C104_nesting.
(** A kernel thread in its scheduler has preemption disabled once *)
Theorem C104_scheduler : forall limit prog s k, reachable limit prog s -> cur (kts s k) = None -> count (kts s k) = 1 /\ enabled (kts s k) = false.
Proof. intros limit prog s k R E. destruct (i_kernel _ _ (reach_inv _ _ _ R) k E) as [A [B _]]. auto. Qed.
Print Assumptions C104_scheduler.
(** A thread runs on one kernel thread at a time *)
Theorem C104_one : forall limit prog s k j t, reachable limit prog s -> cur (kts s k) = Some t -> cur (kts s j) = Some t -> k = j.
Proof. intros limit prog s k j t R. apply (i_one _ _ (reach_inv _ _ _ R)). Qed.
Print Assumptions C104_one.
(** A signal interrupts the thread only where it has preemption enabled, outside the functions that must not be preempted and outside the handler; otherwise it is noted, and nothing else changes *)
Theorem C104_signal : forall limit prog s s' k t i, reachable limit prog s -> runs s k t i -> step limit (Signal k) s = Next s' ->
  if (dep s t =? 0) && negb (nopre i) && negb (inprog (kts s k)) then cont s' t = handler ++ cont s t
  else cont s' t = cont s t /\ pend (kts s' k) = true /\ enabled (kts s' k) = enabled (kts s k) /\ count (kts s' k) = count (kts s k) /\ cur (kts s' k) = Some t.
Proof.
  intros limit prog s s' k t i R Rs. pose proof (C104_nesting limit prog s k t i R Rs) as [_ [Nd Ne]]. destruct Rs as [E [c Ec]]. cbn [step]. destruct (masked (kts s k)); [discriminate|]. rewrite E, Ec. unfold ready.
  assert (Q : (dep s t =? 0) && negb (nopre i) = negb (nopre i) && enabled (kts s k)).
  { destruct (nopre i); cbn; [now rewrite andb_false_r|]. rewrite andb_true_r. destruct (Nat.eqb_spec (dep s t) 0); [now rewrite Ne|rewrite Nd by lia; reflexivity]. }
  rewrite Q. destruct (negb (nopre i) && enabled (kts s k) && negb (inprog (kts s k))); intros [= <-]; cbn [kts cont]; rewrite !upd_same; cbn; auto 8.
Qed.
Print Assumptions C104_signal.
(** A noted signal is not forgotten: only a yield of the thread on that kernel thread clears the note *)
Theorem C104_pending : forall limit prog s s' l k, reachable limit prog s -> step limit l s = Next s' -> pend (kts s k) = true ->
  pend (kts s' k) = true \/ exists t c, cur (kts s' k) = Some t /\ (cont s' t = handler ++ c \/ cont s' t = force_yield ++ c).
Proof.
  intros limit prog s s' l k R St P. pose proof (reach_inv _ _ _ R) as H. destruct l as [j skip|j|j t]; cbn [step] in St.
  - destruct (cur (kts s j)) as [t|] eqn:E; [|discriminate]. destruct (cont s t) as [|i c] eqn:Ec; [discriminate|]. destruct (i_run _ _ H j t E) as [_ F]. rewrite Ec in F. destruct F as [_ [_ [_ [_ [_ [_ Hj]]]]]].
    assert (Go : forall x', pend x' = pend (kts s j) -> pend (upd (kts s) j x' k) = true) by (intros x' Px; unfold upd; destruct (Nat.eqb_spec k j) as [->|]; congruence).
    destruct i; cbn [exec] in St;
      try (repeat match type of St with (if ?b then _ else _) = _ => destruct b end; try discriminate; injection St as <-; left; cbn [kts]; apply Go; reflexivity).
    + destruct (count (kts s j)); [discriminate|]. injection St as <-. left. cbn [kts]. apply Go. reflexivity.
    + subst proc. injection St as <-. cbn [kts cont]. destruct (Nat.eq_dec k j) as [->|N]; [|left; now rewrite upd_other by exact N]. right. exists t, c. rewrite !upd_same. cbn [cur]. auto.
  - destruct (masked (kts s j)); [discriminate|]. destruct (cur (kts s j)) as [t|] eqn:E.
    + destruct (cont s t) as [|i c] eqn:Ec; [discriminate|]. destruct (ready (kts s j) i); injection St as <-; cbn [kts cont].
      * destruct (Nat.eq_dec k j) as [->|N]; [|left; now rewrite upd_other by exact N]. right. exists t, (i :: c). rewrite !upd_same. cbn [cur]. rewrite ?E. auto.
      * left. unfold upd. destruct (k =? j); [reflexivity|exact P].
    + injection St as <-. left. cbn [kts]. unfold upd. destruct (k =? j); [reflexivity|exact P].
  - destruct (cur (kts s j)); [discriminate|]. destruct (running s t); [discriminate|]. destruct (cont s t); [discriminate|]. injection St as <-. left. cbn [kts]. unfold upd. destruct (Nat.eqb_spec k j) as [->|]; exact P.
Qed.
Print Assumptions C104_pending.
(** The last enable_interrupts with polling tests the flag of its own processor, though the processor was read before preemption was enabled, and yields if a signal was noted *)
Theorem C104_poll : forall limit prog s k t j c skip s', reachable limit prog s -> cur (kts s k) = Some t -> cont s t = EnaC j :: c -> step limit (Run k skip) s = Next s' ->
  j = k /\ (pend (kts s k) = true -> exists s'', step limit (Run k skip) s' = Next s'' /\ cont s'' t = force_yield ++ c /\ pend (kts s'' k) = false).
Proof.
  intros limit prog s k t j c skip s' R E Ec St. destruct (i_run _ _ (reach_inv _ _ _ R) k t E) as [_ F]. rewrite Ec in F. destruct F as [_ [_ [_ [_ [_ [_ ->]]]]]]. split; [reflexivity|]. intros P. cbn [step] in St. rewrite E, Ec in St. cbn [exec] in St. rewrite P in St. injection St as <-.
  cbn [step kts cont]. rewrite !upd_same, E. rewrite upd_same. cbn [exec]. eexists. split; [reflexivity|]. cbn [kts cont]. rewrite !upd_same. auto.
Qed.
Print Assumptions C104_poll.
(** Example: thread 0 disables preemption twice; the signal comes between; at the last enable_interrupts it yields, thread 1 runs, and thread 0 continues on another kernel thread *)
Definition prog0 (t : nat) : list instr := match t with 0 => [DisA false; DisB; DisA false; DisB; Work; EnaA true; EnaA true; Work] | _ => [Work] end.
Example C104_proper : forall t, proper 100 0 (prog0 t).
Proof. destruct t; repeat (constructor; [lia|] || constructor). Qed.
Definition sched := Dispatch 5 0 :: repeat (Run 5 false) 8 ++ [Signal 5] ++ repeat (Run 5 false) 9.
Example C104_example : match run 100 sched (init prog0) with Next s => cur (kts s 5) = Some 0 /\ dep s 0 = 1 /\ pend (kts s 5) = false /\ enabled (kts s 5) = false | _ => False end
  /\ match run 100 (sched ++ [Run 5 false; Dispatch 5 1; Dispatch 3 0; Run 3 false; Run 3 false]) (init prog0) with Next s => cur (kts s 3) = Some 0 /\ enabled (kts s 3) = true /\ count (kts s 5) = 1 /\ cur (kts s 5) = Some 1 | _ => False end.
Proof. split; vm_compute; repeat split. Qed.
(** without polling the thread goes on, and the note remains *)
Example C104_no_poll : match run 100 (Dispatch 5 0 :: repeat (Run 5 false) 6 ++ [Signal 5] ++ repeat (Run 5 false) 5) (init (fun _ => [DisA false; DisB; Work; EnaA false; Work; Work])) with Next s => cont s 0 = [Work; DisA false; DisB; Switch false] /\ pend (kts s 5) = true /\ enabled (kts s 5) = true | _ => False end.
Proof. vm_compute. repeat split. Qed.
(** programs that are not proper *)
Example C104_unbalanced : run 100 (Dispatch 5 0 :: repeat (Run 5 false) 8) (init (fun _ => [Work; EnaA true])) = Abort
  /\ run 100 (Dispatch 5 0 :: repeat (Run 5 false) 8) (init (fun _ => [DisA false; DisB] ++ force_yield)) = Abort.
Proof. vm_compute. split; reflexivity. Qed.
