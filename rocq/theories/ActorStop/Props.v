From Coq Require Import List Arith ZArith Bool Lia.
From Verif.Park Require Import Model.
From Verif.ActorStop Require Import Model Spec Proofs.
Import ListNotations.
Open Scope nat_scope.

(* The count is the number of live actors, in every execution. *)
Theorem C87_count : forall s, any s -> count s = length (live s) /\ NoDup (live s).
Proof. intros s A. destruct (any_base s A). auto. Qed.
Print Assumptions C87_count.

(* If the first actors are created before the last of them can terminate:
   park and unpark always match, ... *)
Theorem C87_no_mismatch : forall s, reach s -> main s <> Wrong.
Proof. intros s R. exact (i_w s (reach_inv s R)). Qed.
Print Assumptions C87_no_mismatch.

(* ... actor_stop goes on only when all actors have terminated and no worker will
   touch the executor thread again, ... *)
Theorem C87_stops_after_all : forall s, reach s -> main s = Ready \/ main s = Back \/ main s = Idle -> live s = [] /\ count s = 0 /\ owed s = 0 /\ ticket s = RUNNING.
Proof.
  intros s R M. pose proof (reach_inv s R) as I. pose proof (b_ct s (i_b s I)) as CT. destruct I.
  assert (E : live s = [] /\ owed s = 0 /\ ticket s = RUNNING); [|destruct E as (L & O & T); rewrite L in CT; auto].
  destruct M as [M|[M|M]]; [| |exact (i_thd M)]; rewrite M in *;
    (destruct (live s) eqn:L; [|destruct (i_live ltac:(discriminate)) as [_ []]; left; discriminate]; destruct (fresh s) eqn:F; [destruct (i_live ltac:(discriminate)) as [_ []]; auto|];
     split; [reflexivity|apply i_dead; auto; discriminate]).
Qed.
Print Assumptions C87_stops_after_all.

(* ... and then it does: the wakeup is not lost, wherever the executor thread is
   in actor_stop when the last actor terminates. *)
Theorem C87_wakes : forall s, reach s -> live s = [] -> fresh s = false -> main s <> Idle -> exists l s', steps s l = Some s' /\ main s' = Idle /\ length l <= 5.
Proof.
  intros s R L F M. pose proof (reach_inv s R) as [_ W _ ON _ _ D]. specialize (D M L F). specialize (ON M).
  destruct s as [lv nx ct ow tk mn th fr]. cbn in *. subst. destruct mn; try contradiction; try congruence.
  - destruct D as [[-> ->]|[-> ->]]; [exists [Unpark; Stop; Kernel; Finish]|exists [Stop; Kernel; Finish]]; (eexists; split; [reflexivity|]; cbn; split; [reflexivity|lia]).
  - destruct D as [[-> ->]|[-> ->]]; [exists [Unpark; Kernel; Finish]|exists [Kernel; Finish]]; (eexists; split; [reflexivity|]; cbn; split; [reflexivity|lia]).
  - destruct D as [-> ->]. exists [Unpark; Resume; Finish]. eexists; split; [reflexivity|]; cbn; split; [reflexivity|lia].
  - destruct D as [-> ->]. exists [Resume; Finish]. eexists; split; [reflexivity|]; cbn; split; [reflexivity|lia].
  - destruct D as [-> ->]. exists [Finish]. eexists; split; [reflexivity|]; cbn; split; [reflexivity|lia].
Qed.
Print Assumptions C87_wakes.

(* In general not.  One actor terminates before the next one is created:
   actor_stop returns, and the executor is deleted, while an actor is live. *)
Definition early : list ev := [Start; Create; Term 0; Unpark; Create; Stop; Kernel; Finish].
Theorem C87_early_refuted : exists s, steps init early = Some s /\ main s = Idle /\ live s = [1].
Proof. eexists. split; [reflexivity|]. split; reflexivity. Qed.
Print Assumptions C87_early_refuted.

(* ... or, if that one terminates too, the program is aborted. *)
Definition mismatch : list ev := [Start; Create; Term 0; Unpark; Create; Term 1; Unpark].
Theorem C87_mismatch_refuted : exists s, steps init mismatch = Some s /\ main s = Wrong.
Proof. eexists. split; reflexivity. Qed.
Print Assumptions C87_mismatch_refuted.

(* If no actor is created actor_stop never returns, whatever happens. *)
Theorem C87_no_actor_refuted : forall l s, steps init ([Start; Stop; Kernel] ++ l) = Some s -> main s = Parked.
Proof.
  intros l s H. cbn in H. set (s0 := St [] 0 0 0 (-1)%Z Parked true true) in H. destruct l as [|e l]; [injection H as <-; reflexivity|].
  destruct e; discriminate.
Qed.
Print Assumptions C87_no_actor_refuted.

(* Two sessions; in the first an actor creates another one before it terminates,
   and the last one terminates before actor_stop is called; in the second it
   terminates while the executor thread is between park and the kernel. *)
Definition sessions : list ev :=
  [Start; Create; Create; Term 0; Child 1; Term 1; Term 2; Unpark; Stop; Kernel; Finish;
   Start; Create; Stop; Term 3; Kernel; Unpark; Resume; Finish].
Example C87_sessions_ex : exists s, steps init sessions = Some s /\ main s = Idle /\ next s = 4 /\ live s = [].
Proof. eexists. split; [vm_compute; reflexivity|]. repeat split. Qed.
