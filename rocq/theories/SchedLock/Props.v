From Coq Require Import List Bool Arith Lia.
From Verif.SchedLock Require Import Model Spec Proofs Live.
Import ListNotations.
Open Scope nat_scope.

(** C72: while a thread is in the write section no other thread is in a read or write section, whatever threads register, unregister and exit. *)
Theorem C72_exclusive : forall m junk s, reach any m junk s -> exclusive s.
Proof.
  intros m junk s R t u (id & k & T) NE. pose proof (reach_inv _ _ _ _ R) as I. split.
  - intros (id' & U). assert (P : passed (at_ s u) = true) by (rewrite U; auto). assert (C : cell (at_ s u) = Some id') by (rewrite U; auto). assert (IN : inside (at_ s t) = true) by (rewrite T; auto).
    pose proof (v_know _ I u t id' P C IN) as K. rewrite T in K. cbn [knows] in K. destruct (v_hold _ I u t id' P C IN) as [X _]; [rewrite T; exact K|]. rewrite U in X. discriminate.
  - intros (id' & k' & U). apply NE. apply (v_one _ I); [rewrite T|rewrite U]; auto.
Qed.
(** Registered threads have their own cell: a cell below ready holds the thread whose id it is. *)
Theorem C72_ids : forall m junk s, reach any m junk s -> forall t u i, at_ s t = Idle i -> at_ s u = Idle i -> t = u.
Proof.
  intros m junk s R t u i T U. pose proof (reach_inv _ _ _ _ R) as I. destruct (v_cell _ I t i) as [_ A]; [rewrite T; auto|]. destruct (v_cell _ I u i) as [_ B]; [rewrite U; auto|]. congruence.
Qed.
(** As long as no thread unregisters: the memory of an exited thread is not touched, the lock never comes to a standstill, and
    it is free once nobody uses it. *)
Theorem C72_no_fault_partial : forall m junk s, reach stays m junk s -> ending_ s <> Fault.
Proof. intros m junk s R. apply (j_run _ (reach_inv2 _ _ _ R)). Qed.
Theorem C72_progress_partial : forall m junk s t, reach stays m junk s -> ending_ s = Runs -> ~ resting s t -> exists u, moves s u.
Proof. intros m junk s t R RN NR. eapply progress; eauto; [eapply reach_inv|eapply reach_inv2]; eauto. Qed.
Theorem C72_free_partial : forall m junk s, reach stays m junk s -> (forall t, resting s t) -> wlock s = false /\ forall t, lk s t = false.
Proof.
  intros m junk s R Q. pose proof (reach_inv2 _ _ _ R) as J. assert (NI : forall w, inside (at_ s w) = false) by (intros w; destruct (Q w) as [->|[->|[id ->]]]; auto). split.
  - destruct (wlock s) eqn:W; auto. destruct (j_w _ J W) as [w X]. rewrite NI in X. discriminate.
  - intros t. destruct (lk s t) eqn:L; auto. destruct (j_lk _ J t L) as [X|(w & id & X & _)]; [|rewrite NI in X; discriminate]. destruct (Q t) as [E|[E|[id E]]]; rewrite E in X; discriminate.
Qed.
Lemma run_reach : forall m junk l s s1, reach any m junk s -> run s l = Some s1 -> reach any m junk s1.
Proof.
  intros m junk. induction l as [|[t a] l IH]; intros s s1 R H; cbn [run] in H; [congruence|]. destruct (step s t a) as [s2|] eqn:E; [|discriminate]. apply (IH s2 s1); auto. eapply reach_step; eauto. constructor.
Qed.
(** Otherwise: a thread that unregisters while a writer holds its lock keeps it locked (the writer finds the cell empty), and after registering again
    cannot read, nor can anybody write. *)
Definition go (t n : nat) : list (nat * act) := repeat (t, Go) n.
Definition setup : list (nat * act) := [(0, Register)] ++ go 0 5 ++ [(1, Register)] ++ go 1 6 ++ [(0, Write)].
Definition lost : list (nat * act) := setup ++ go 0 7 ++ [(1, Unregister)] ++ go 0 6 ++ [(1, Register)] ++ go 1 3.
Theorem C72_free_refuted : exists m junk s id, reach any m junk s /\ (forall t, resting s t) /\ wlock s = false /\ at_ s 1 = Idle id /\ lk s 1 = true.
Proof.
  exists 4, (fun _ => None). destruct (run (start 4 (fun _ => None)) lost) as [s|] eqn:E; [|vm_compute in E; discriminate E]. exists s, 1.
  split; [eapply run_reach; [apply reach_start|exact E]|]. vm_compute in E. injection E as <-. sf. split; [|auto].
  intros t. unfold resting. sf. destruct t as [|[|t]]; [right; right; eauto|right; right; eauto|left; reflexivity].
Qed.
(** A thread that unregisters and exits after a writer has read its cell: the writer changes memory of a thread that is gone. *)
Definition late : list (nat * act) := setup ++ go 0 5 ++ [(1, Unregister); (1, Exit)] ++ go 0 1.
Theorem C72_no_fault_refuted : exists m junk s, reach any m junk s /\ ending_ s = Fault.
Proof.
  exists 4, (fun _ => None). destruct (run (start 4 (fun _ => None)) late) as [s|] eqn:E; [|vm_compute in E; discriminate E]. exists s.
  split; [eapply run_reach; [apply reach_start|exact E]|]. vm_compute in E. injection E as <-. reflexivity.
Qed.
(** Examples: a reader holds off a writer, a writer holds off readers *)
Definition places (r : option state) : option (list pc) := option_map (fun s => map (at_ s) [0; 1]) r.
Example reader_first : places (run (start 4 (fun _ => None)) (setup ++ [(1, Read)] ++ go 1 2 ++ go 0 9)) = Some [WTest 0 1 2 1; Reading 1].
Proof. reflexivity. Qed.
Example then_writer : places (run (start 4 (fun _ => None)) (setup ++ [(1, Read)] ++ go 1 2 ++ go 0 9 ++ go 1 1 ++ go 0 3 ++ [(1, Read)] ++ go 1 3)) = Some [Writing 0 2; RdWait 1].
Proof. reflexivity. Qed.
Example raced : places (run (start 4 (fun _ => None)) (setup ++ [(1, Read)] ++ go 1 1 ++ go 0 7 ++ go 1 3)) = Some [Writing 0 2; RdSpin 1].
Proof. reflexivity. Qed.
Example cannot_read : places (run (start 4 (fun _ => None)) (lost ++ [(1, Read)] ++ go 1 9)) = Some [Idle 0; RdSpin 1].
Proof. reflexivity. Qed.
Example cannot_write : places (run (start 4 (fun _ => None)) (lost ++ [(0, Write)] ++ go 0 20)) = Some [WTest 0 1 2 1; Idle 1].
Proof. reflexivity. Qed.
Print Assumptions C72_exclusive.
Print Assumptions C72_ids.
Print Assumptions C72_no_fault_partial.
Print Assumptions C72_progress_partial.
Print Assumptions C72_free_partial.
Print Assumptions C72_free_refuted.
Print Assumptions C72_no_fault_refuted.
