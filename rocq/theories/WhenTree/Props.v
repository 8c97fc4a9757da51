From Coq Require Import List Bool Arith Lia.
From Verif.WhenTree Require Import Model Spec Proofs.
Import ListNotations.
(** The statement is complete exactly when the clauses that ran complete the statement from which the clauses with a false when condition have been removed. *)
Theorem C74_when : forall s cond f b, (forall i, off s cond i -> f i = statuses s cond i) -> sem s cond (fun i => is_run (f i)) 0 = Some b -> done s f = b.
Proof.
  intros s cond f b K H. pose proof (ready_good s) as G. unfold done. fold (runs f) in H. destruct (ws (ready s) cond 0) eqn:W.
  - assert (M : means (ready s) false false false cond 0 f).
    { eapply assign_means with (f0 := init (ready s) cond 0); eauto; [discriminate|intros j _; auto|]. intros j J C. apply K. split; auto. rewrite erase_ready in J. exact J. }
    unfold means in M. rewrite erase_ready, H in M. exact M.
  - assert (N : sem (erase (ready s)) cond (runs f) 0 = None) by (eapply ws_off; eauto; discriminate). rewrite erase_ready in N. congruence.
Qed.
Print Assumptions C74_when.
(** No clause that takes part starts out satisfied. *)
Theorem C74_start : forall s cond i, on s cond i -> statuses s cond i = UNSAT.
Proof.
  intros s cond i (w & H & C). pose proof (ready_good s) as G. unfold statuses. rewrite perform_out.
  - apply (init_on (ready s) _ _ _ _ cond 0 i w G); auto. rewrite erase_ready. auto.
  - intros j x X ->. eapply assign_on in X; eauto; [|discriminate]. destruct X as (k & E & A & B). cbn in E. subst k. rewrite erase_ready in A. rewrite A in H. injection H as <-. rewrite C in B; auto; discriminate.
Qed.
Print Assumptions C74_start.
(** A conjunction all of whose clauses are disabled is complete at once. *)
Theorem C74_vacuous_partial : forall l r cond f, (forall i, off (And l r) cond i -> f i = statuses (And l r) cond i) -> sem (And l r) cond (fun i => is_run (f i)) 0 = None -> done (And l r) f = true.
Proof.
  intros l r cond f K H. set (s := And l r) in *. pose proof (ready_good s) as G. unfold done. fold (runs f) in H. assert (KK : keeps (ready s) cond 0 (statuses s cond) f) by (intros j J C; apply K; split; auto; rewrite erase_ready in J; exact J). destruct (ws (ready s) cond 0) eqn:W.
  - assert (M : means (ready s) false false false cond 0 f) by (eapply assign_means with (f0 := init (ready s) cond 0); eauto; [discriminate|intros j _; auto]).
    unfold means in M. rewrite erase_ready, H in M. revert M. pose proof (erase_ready s) as E. destruct (ready s) as [|[] a x y]; try discriminate. intros [_ M]. exact M.
  - assert (N : sem (erase (ready s)) cond (runs f) 0 = None) by (rewrite erase_ready; auto). rewrite (off_pred _ _ _ _ _ _ N KK). unfold statuses. replace (fst (assign (ready s) cond 0)) with (fst (sub (ready s) true 0)); [eapply sub_pred; eauto; intros j _; auto|].
    revert W. pose proof (erase_ready s) as E. destruct (ready s) as [|o a x y]; try discriminate. cbn [ws assign]. destruct (negb (ws x cond 0) && negb (ws y cond (0 + size x))); [auto|discriminate].
Qed.
Print Assumptions C74_vacuous_partial.
(** Not so in general: ( when(0) A or when(0) B ) or ( when(0) C and when(0) D ) has nothing to wait for and never completes. *)
Theorem C74_vacuous_refuted : exists s cond, all_or (build s) = false /\ (forall ran, sem s cond ran 0 = None) /\ done s (statuses s cond) = false.
Proof. exists (Or (Or (Clause true) (Clause true)) (And (Clause true) (Clause true))), (fun _ => false). split; [reflexivity|split; reflexivity]. Qed.
Print Assumptions C74_vacuous_refuted.
(** The statement is compiled as an exclusive choice only if it has no "and"... when it is written without parentheses; *)
Theorem C74_all_or_partial : forall s, wor s = true -> all_or (build s) = negb (has_and s).
Proof. intros s H. unfold all_or. rewrite paint_flag; auto. Qed.
Print Assumptions C74_all_or_partial.
Theorem C74_no_and : forall s, has_and s = false -> all_or (build s) = true.
Proof. intros s H. unfold all_or. destruct (fst (snd (paint (build s) false false false false))) eqn:E; auto. apply paint_some in E. destruct E; congruence. Qed.
Print Assumptions C74_no_and.
(** with parentheses, ( A and B ) or ( C or D ) is compiled as an exclusive choice of one of the four, so that A alone completes it. *)
Theorem C74_all_or_refuted : exists s, all_or (build s) = true /\ has_and s = true /\ forall cond, sem s cond (fun i => i =? 0) 0 = Some false.
Proof. exists (Or (And (Clause false) (Clause false)) (Or (Clause false) (Clause false))). split; [reflexivity|split; reflexivity]. Qed.
Print Assumptions C74_all_or_refuted.
(** ( when(0) A or when(0) B ) and C: C alone completes it; ( when(0) A and when(0) B ) or C and D: C does not *)
Example C74_ex1 : let s := And (Or (Clause true) (Clause true)) (Clause false) in let cond := fun _ => false in
  statuses s cond 0 = UNSAT /\ statuses s cond 1 = RUN /\ statuses s cond 2 = UNSAT /\ done s (statuses s cond) = false /\ done s (fun i => if i =? 2 then RUN else statuses s cond i) = true.
Proof. repeat split. Qed.
Example C74_ex2 : let s := Or (And (Clause true) (Clause true)) (And (Clause false) (Clause false)) in let cond := fun _ => false in
  done s (fun i => if i =? 2 then RUN else statuses s cond i) = false /\ done s (fun i => if 2 <=? i then RUN else statuses s cond i) = true /\ sem s cond (fun i => 2 <=? i) 0 = Some true.
Proof. repeat split. Qed.
