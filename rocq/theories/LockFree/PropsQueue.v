(** C44: mpsc_queue is first in, first out. *)
From Coq Require Import List Bool Arith Lia.
From Verif.LockFree Require Import Spec QueueModel QueueProofs.
Import ListNotations.

(** The elements popped so far are a first part of the elements pushed, in the order of the tail exchanges. *)
Theorem C44_fifo : forall s, reach s -> fifo (arr s) (out s).
Proof. intros s R. destruct (reach_inv s R) as (Q & A & _). exists Q. exact A. Qed.
Print Assumptions C44_fifo.

(** A pop that finds the queue empty: everything pushed has been popped, or the push of the next element is not finished. *)
Theorem C44_empty : forall s, reach s -> cp s = CIdle -> head s = None -> arr s = out s \/ exists e r p, arr s = out s ++ e :: r /\ pp s p = PHead e.
Proof.
  intros s R K H. destruct (reach_inv s R) as (Q & I). parts I. destruct Q as [|e r]; [left; now rewrite A, app_nil_r|]. right.
  destruct (HN e r eq_refl K H) as [p X]. eauto 6.
Qed.
Print Assumptions C44_empty.

(** Otherwise pop returns the next element: its first step takes it, and the call returns no other. *)
Definition popping (k : cpc) : option nat :=
  match k with CIdle => None | CChk e | CHead e | CClr e | CNull e | CCas e | CSpin e | CClr2 e _ | CSet e _ => Some e end.
Theorem C44_next : forall s e, reach s -> popping (cp s) = Some e -> exists r, arr s = out s ++ e :: r.
Proof.
  intros s e R K. destruct (reach_inv s R) as (Q & I). parts I. unfold cok in C. rewrite A. destruct (cp s); inversion K; subst;
    repeat match goal with H : _ /\ _ |- _ => destruct H | H : exists _, _ |- _ => destruct H end; subst; eauto.
Qed.
Print Assumptions C44_next.
Theorem C44_starts : forall s, reach s -> cp s = CIdle -> (forall p, pp s p = PIdle) -> arr s <> out s -> exists e s', step s Cons = Some s' /\ popping (cp s') = Some e.
Proof.
  intros s R K NP N. destruct (head s) as [e|] eqn:H.
  - exists e. unfold step. rewrite K, H. eexists. split; reflexivity.
  - exfalso. destruct (C44_empty s R K H) as [X|(e & r & p & _ & X)]; [contradiction|]. rewrite NP in X. discriminate.
Qed.
Print Assumptions C44_starts.
(** The consumer waits only for a producer that is about to link the next element; otherwise each of its steps moves it on. *)
Theorem C44_progress : forall s e, reach s -> popping (cp s) = Some e ->
  (exists s', step s Cons = Some s' /\ cp s' <> cp s) \/ (cp s = CSpin e /\ exists p n, pp s p = PLink e n /\ exists s', step s (Prod p) = Some s' /\ next s' e = Some n).
Proof.
  intros s e R K. destruct (reach_inv s R) as (Q & I). parts I. unfold cok in C. destruct (cp s) as [|x|x|x|x|x|x|x r|x r] eqn:E; inversion K; subst;
    try (left; unfold step; rewrite E; eexists; split; [reflexivity|]; cbn; try (destruct (next s e)); discriminate).
  - left. unfold step. rewrite E. destruct (match tail s with Some x => x =? e | None => false end); (eexists; split; [reflexivity|]; discriminate).
  - destruct C as [(x & r & ->) HD]. destruct (LK e x) as [X|[[X [p Y]]|X]]; [cbn; now left| | |congruence].
    + left. unfold step. rewrite E, X. eexists. split; [reflexivity|]. discriminate.
    + right. split; [reflexivity|]. exists p, x. split; [exact Y|]. unfold step. rewrite Y. eexists. split; [reflexivity|]. sf. apply upd_same.
Qed.
Print Assumptions C44_progress.
(** A node returned by pop is out of the queue's hands: nobody will touch its link, and it is reset. *)
Theorem C44_released : forall s n, reach s -> use s n = false -> next s n = None /\ forall p, pnode (pp s p) <> Some n /\ forall m, pp s p <> PLink n m.
Proof.
  intros s n R H. destruct (reach_inv s R) as (Q & I). parts I. assert (NQ : ~ In n Q) by (intros X; assert (use s n = true) by (apply U; now left); congruence). split.
  - destruct (next s n) as [b|] eqn:E; [|reflexivity]. apply NX in E. apply consec_in in E. tauto.
  - intros p. split.
    + intros X. destruct (pp s p) as [|m|x m|m] eqn:E; cbn in X; inversion X; subst.
      * assert (use s n = true) by (apply U; eauto). congruence.
      * destruct (PL _ _ _ E) as (Y & _). apply consec_in in Y. tauto.
      * destruct (PH _ _ E) as ((r & Y) & _). apply NQ. rewrite Y. now left.
    + intros m X. destruct (PL _ _ _ X) as (Y & _). apply consec_in in Y. tauto.
Qed.
Print Assumptions C44_released.

Fixpoint go (s : st) (l : list act) : option st := match l with [] => Some s | a :: l' => match step s a with Some s' => go s' l' | None => None end end.
(** Producer 1 has exchanged the tail but not linked when the consumer removes element 5 and waits for it. *)
Example C44_example : exists s, go init ([Call 0 5; Prod 0; Prod 0; Call 1 6; Prod 1] ++ repeat Cons 5 ++ [Prod 1] ++ repeat Cons 3 ++ [Call 0 5; Prod 0; Prod 0]) = Some s /\
  arr s = [5; 6; 5] /\ out s = [5] /\ head s = Some 6 /\ next s 6 = Some 5 /\ cp s = CIdle.
Proof. vm_compute. eexists. repeat split. Qed.
