(** C36: alarms. *)
From Coq Require Import ZArith List Bool Sorted Permutation Lia.
From Verif.Alarm Require Import Model Spec Proofs.
Import ListNotations.
Open Scope Z_scope.

(** In every reachable state the pending alarms are in ascending deadline order, ties in registration order, each
    alarm at most once. *)
Theorem C36_ordered : forall t0 s, reach t0 s -> ordered (alarms s) /\ NoDup (map id (alarms s)).
Proof. intros t0 s R. destruct (reach_inv t0 s R) as (A & _ & B & _). auto. Qed.
Print Assumptions C36_ordered.
(** A tick at time t fires exactly the alarms whose deadline has passed, in order, and terminates; the others stay, the
    periodic ones are re-armed at t + period, the one-shot ones are gone. *)
Theorem C36_tick : forall t0 s t, reach t0 s -> now s <= t -> exists s',
  step s t Tick = Some (s', filter (expired t) (alarms s)) /\
  Permutation (alarms s') (filter (fun n => negb (expired t n)) (alarms s) ++ rearmed t (stamp s) (filter (expired t) (alarms s))) /\
  Forall (fun n => t <= deadline n) (alarms s').
Proof.
  intros t0 s t R Ht. destruct (tick_spec (advance s t) (advance_inv s t Ht (reach_inv t0 s R))) as (s' & T1 & _ & _ & T2 & T3).
  assert (alarms (advance s t) = alarms s /\ now (advance s t) = t /\ stamp (advance s t) = stamp s) as (E1 & E2 & E3).
  { unfold advance. destruct (timer s); [destruct (_ <=? t)|]; auto. }
  rewrite E1, E2, E3 in *. exists s'. cbn [step]. rewrite E1. split; auto. split; auto.
  eapply Forall_impl; [|exact T3]. intros n Hn. unfold expired in Hn. apply Z.ltb_ge in Hn. exact Hn.
Qed.
Print Assumptions C36_tick.
(** An unregistered alarm is no longer pending, so (C36_tick) it does not fire until registered again; others unaffected. *)
Theorem C36_cancelled : forall s t i s' fs, step s t (Unregister i) = Some (s', fs) ->
  fs = [] /\ ~ In i (map id (alarms s')) /\ forall n, In n (alarms s) -> id n <> i -> In n (alarms s').
Proof.
  intros s t i s' fs E. cbn [step] in E. inversion E; subst.
  assert (alarms (advance s t) = alarms s) as E1 by (unfold advance; destruct (timer s); [destruct (_ <=? t)|]; auto).
  cbn [unregister alarms]. rewrite E1. repeat split.
  - intros H. apply in_map_iff in H as (n & Hn & H). apply filter_In in H as [_ H]. rewrite Hn, Nat.eqb_refl in H. discriminate.
  - intros n Hn Hi. apply filter_In. split; auto. apply Nat.eqb_neq in Hi. rewrite Hi. auto.
Qed.
Print Assumptions C36_cancelled.
(** No alarm is forgotten: while one is pending, either a tick is already signalled or the timer is armed for no later
    than the first deadline (at least 1us ahead). *)
Theorem C36_timer_armed : forall t0 s n r, reach t0 s -> alarms s = n :: r ->
  signalled s = true \/ exists e, timer s = Some e /\ now s < e <= Z.max (deadline n) (now s + 1000).
Proof. intros t0 s n r R E. destruct (reach_inv t0 s R) as (_ & _ & _ & C & _). unfold covered in C. rewrite E in C. destruct C as [C|(e & ? & ? & ?)]; eauto. Qed.
Print Assumptions C36_timer_armed.
Example C36_example : exists s1 s2 s3 s4 s5,
  step (init 0) 10 (Register 1 5000 0) = Some (s1, []) /\ step s1 20 (Register 2 3000 7000) = Some (s2, []) /\
  step s2 30 (Register 3 5000 0) = Some (s3, []) /\ map id (alarms s3) = [2; 1; 3]%nat /\ timer s3 = Some 3000 /\
  step s3 5001 Tick = Some (s4, [N 2 3000 7000 1; N 1 5000 0 0; N 3 5000 0 2]) /\ alarms s4 = [N 2 12001 7000 3] /\ timer s4 = Some 12001 /\
  step s4 6000 (Unregister 2) = Some (s5, []) /\ alarms s5 = [].
Proof. do 5 eexists. repeat split; vm_compute; reflexivity. Qed.
