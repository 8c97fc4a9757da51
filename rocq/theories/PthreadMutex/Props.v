(* C78: mutexes of the pthread layer. *)

From Coq Require Import List Bool Arith ZArith Lia.
From Verif.PthreadMutex Require Import Model Spec Proofs.
Import ListNotations.

(* The full statement is: for both values of w, every state reachable from
   [start w] is [exclusive].  It holds for mutexes set up by
   pthread_mutex_init; for statically initialised ones it fails, see below. *)
Theorem C78_exclusive_partial : forall tr s, run (start true) tr s -> exclusive s.
Proof. intros tr s R. apply inv_excl. apply (inv_run _ _ _ R inv_start). Qed.
Print Assumptions C78_exclusive_partial.

(* Nothing undefined happens to such a mutex. *)
Theorem C78_defined_partial : forall tr s l, run (start true) tr s -> step s l <> Undef.
Proof.
  intros tr s l R E. pose proof (inv_step s l (inv_run _ _ _ R inv_start)) as H. rewrite E in H. exact H.
Qed.
Print Assumptions C78_defined_partial.

(* The results: EPERM exactly from threads that do not hold the mutex, EBUSY
   exactly while another thread holds it. *)
Theorem C78_results_partial : forall tr s t, run (start true) tr s -> pcs s t = Idle ->
  (exists s1 r, step s (LUnlock t) = Ok s1 r /\ (r = REPerm <-> ~ holds s t) /\ (r = ROk <-> holds s t) /\
                (holds s t -> held s t = S (held s1 t))) /\
  (exists s1 r, step s (LTry t) = Ok s1 r /\ (r = REBusy <-> exists u, u <> t /\ holds s u)) /\
  (exists s1 r, step s LDestroy = Ok s1 r /\ (r = REBusy <-> exists u, holds s u) /\ (r = ROk <-> free s)).
Proof.
  intros tr s t R HP. pose proof (inv_run _ _ _ R inv_start) as H.
  pose proof (owner_held s H) as OH. cbn [step]. rewrite HP. unfold holds. split; [|split].
  - unfold do_unlock. destruct (is_me (owner s) t) eqn:M; cbn [negb].
    + apply is_me_iff in M. pose proof (i_owner s H) as O. rewrite M in O. destruct O as (RC & P & NW & F).
      do 2 eexists. split; [reflexivity|]. split; [split; [discriminate|lia]|]. split; [tauto|].
      intros _. cbn [rec]. destruct (Z.eqb_spec (rec s - 1) 0) as [Z0|Z0].
      * unfold pop_node. cbn [queue]. destruct (queue s) as [|u q] eqn:Q; cbn [held].
        -- updc. lia.
        -- assert (WU : waiting s u) by (apply (i_queue s H); rewrite Q; left; reflexivity).
           assert (D : t <> u) by (intros ->; contradiction). updc. lia.
      * cbn [held]. updc. lia.
    + assert (NH : held s t = 0).
      { destruct (Nat.eq_0_gt_0_cases (held s t)) as [|G]; [assumption|]. apply OH, is_me_iff in G. congruence. }
      do 2 eexists. split; [reflexivity|]. rewrite NH.
      split; [split; [intros _; lia|reflexivity]|]. split; [split; [discriminate|lia]|lia].
  - unfold do_try. destruct (owner s) as [w|] eqn:E; cbn [is_me is_none negb andb].
    + destruct (Nat.eqb_spec w t) as [->|D]; cbn [negb andb].
      * do 2 eexists. split; [reflexivity|]. split; [discriminate|]. intros (u & D & G). apply OH in G. congruence.
      * do 2 eexists. split; [reflexivity|]. split; [|reflexivity]. intros _. exists w. split; [exact D|]. apply OH. reflexivity.
    + do 2 eexists. split; [reflexivity|]. split; [discriminate|]. intros (u & D & G). apply OH in G. discriminate.
  - unfold do_destroy. destruct (owner s) as [w|] eqn:E; cbn [is_none negb].
    + do 2 eexists. split; [reflexivity|]. split.
      * split; [|reflexivity]. intros _. exists w. apply OH. reflexivity.
      * split; [discriminate|]. intros F. assert (G : 0 < held s w) by (apply OH; reflexivity). rewrite F in G. lia.
    + do 2 eexists. split; [reflexivity|]. split.
      * split; [discriminate|]. intros (u & G). apply OH in G. discriminate.
      * split; [|reflexivity]. intros _ u. destruct (Nat.eq_0_gt_0_cases (held s u)) as [|G]; [assumption|].
        apply OH in G. discriminate.
Qed.
Print Assumptions C78_results_partial.

(* No waiter is forgotten: as long as a thread waits some thread holds the
   mutex, and the last unlock passes it to a waiting thread. *)
Theorem C78_waiters_partial : forall tr s t, run (start true) tr s -> waiting s t ->
  (exists u, u <> t /\ holds s u) /\
  (forall u s1 r, held s u = 1 -> step s (LUnlock u) = Ok s1 r ->
     exists w, waiting s w /\ holds s1 w /\ ~ waiting s1 w).
Proof.
  intros tr s t R W. pose proof (inv_run _ _ _ R inv_start) as H. pose proof (owner_held s H) as OH.
  pose proof (i_owner s H) as O. split.
  - destruct (owner s) as [w|] eqn:E.
    + exists w. split; [intros ->; tauto|]. apply OH. reflexivity.
    + destruct O as (_ & Q & _). apply (i_queue s H) in W. rewrite Q in W. destruct W.
  - intros u s1 r HU E. cbn [step] in E. destruct (pcs s u) eqn:HP; try discriminate.
    assert (EO : owner s = Some u) by (apply OH; lia). rewrite EO in O. destruct O as (RC & _).
    unfold do_unlock in E. rewrite EO in E. cbn [is_me] in E. rewrite Nat.eqb_refl in E. cbn [negb rec] in E.
    destruct (Z.eqb_spec (rec s - 1) 0) as [Z0|Z0]; [|lia]. injection E as <- <-.
    apply (i_queue s H) in W. unfold pop_node. cbn [queue].
    destruct (queue s) as [|w q] eqn:Q; [destruct W|]. exists w.
    split; [apply (i_queue s H); rewrite Q; left; reflexivity|].
    unfold holds, waiting. cbn [held pcs]. updc. split; [lia|]. intros (b & X). discriminate.
Qed.
Print Assumptions C78_waiters_partial.

(* A statically initialised mutex is right as well if its first
   pthread_mutex_lock returns before any other thread touches it. *)
Theorem C78_static_quiet_partial : forall t s0 r tr s,
  exec (start false) [LLock t; LStep t; LStep t; LStep t; LStep t; LStep t] = Ok s0 r ->
  run s0 tr s -> held s0 t = 1 /\ exclusive s.
Proof.
  intros t s0 r tr s E R.
  unfold exec, step, start, do_call_lock, do_step, do_lock, set_pc in E.
  repeat (cbn [magic word owner rec queue pcs held is_me is_none negb] in E; rewrite ?upd_same in E).
  injection E as <- _. cbn [held]. rewrite upd_same. split; [reflexivity|].
  apply inv_excl. apply (inv_run _ _ _ R).
  assert (P : forall u, upd (upd (upd (upd (upd (upd (fun _ : nat => Idle) t Check2) t Recheck) t Init1) t Init2) t (ToLock false)) t Idle u = Idle).
  { intros u. unfold upd. destruct (Nat.eqb u t); reflexivity. }
  constructor; unfold waiting; cbn [word owner rec queue magic pcs held]; auto.
  - intros u. now rewrite P.
  - intros u. rewrite P. split; [intros []|intros (b & X); discriminate].
  - constructor.
  - rewrite P. updc. split; [reflexivity|]. split; [lia|]. split; [intros (b & X); discriminate|].
    intros u D. now updc.
Qed.
Print Assumptions C78_static_quiet_partial.

(* Threads 1 and 2: 1 locks twice, 2 finds the mutex busy and then waits, gets
   it after two unlocks, and 1 may no longer unlock. *)
Example C78_example :
  exists tr s, run (start true) tr s /\ held s 2 = 1 /\ held s 1 = 0 /\
    map snd tr = [RNone; ROk; RNone; ROk; REBusy; RNone; RNone; ROk; REBusy; ROk; REPerm] /\
    map fst tr = [LLock 1; LStep 1; LTry 1; LStep 1; LTry 2; LLock 2; LStep 2; LUnlock 1; LDestroy; LUnlock 1; LUnlock 1].
Proof.
  eexists [(LLock 1, RNone); (LStep 1, ROk); (LTry 1, RNone); (LStep 1, ROk); (LTry 2, REBusy); (LLock 2, RNone);
           (LStep 2, RNone); (LUnlock 1, ROk); (LDestroy, REBusy); (LUnlock 1, ROk); (LUnlock 1, REPerm)].
  eexists. split; [repeat (eapply run_cons; [reflexivity|]); apply run_nil|]. auto.
Qed.

Definition outcome_both (o : outcome) (t u : nat) : bool :=
  match o with Ok s _ => Nat.ltb 0 (held s t) && Nat.ltb 0 (held s u) | _ => false end.

Lemma exec_run : forall ls s s1 r, exec s ls = Ok s1 r -> exists tr, run s tr s1 /\ map fst tr = ls.
Proof.
  induction ls as [|l ls IH]; intros s s1 r E; cbn [exec] in E.
  - injection E as <- _. exists []. split; [constructor|reflexivity].
  - destruct (step s l) as [s2 r2| |] eqn:ES; try discriminate.
    destruct (IH _ _ _ E) as (tr & R & M). exists ((l, r2) :: tr). split; [econstructor; eauto|]. cbn. now rewrite M.
Qed.

Lemma both_refutes : forall w ls t u, t <> u -> outcome_both (exec (start w) ls) t u = true ->
  exists tr s, run (start w) tr s /\ map fst tr = ls /\ ~ exclusive s.
Proof.
  intros w ls t u D B. destruct (exec (start w) ls) as [s r| |] eqn:E; cbn [outcome_both] in B; try discriminate.
  destruct (exec_run _ _ _ _ E) as (tr & R & M). exists tr, s. split; [exact R|]. split; [exact M|].
  apply andb_true_iff in B. destruct B as [B1 B2]. apply Nat.ltb_lt in B1, B2.
  intros X. apply D. apply X; assumption.
Qed.

(* pthread_mutex_trylock does not call mutex_check.  On a mutex initialised by
   PTHREAD_MUTEX_INITIALIZER it succeeds and leaves the first word zero; the
   next pthread_mutex_lock then initialises the held mutex and gets it too. *)
Theorem C78_static_trylock_refuted :
  exists tr s, run (start false) tr s /\
    map fst tr = [LTry 1; LStep 1; LLock 2; LStep 2; LStep 2; LStep 2; LStep 2; LStep 2] /\ ~ exclusive s.
Proof. apply (both_refutes false _ 1 2); [discriminate|reflexivity]. Qed.
Print Assumptions C78_static_trylock_refuted.

(* With pthread_mutex_lock alone: the first word becomes non-zero before owner
   is set, so a second thread gets past mutex_check and locks, and then the
   first thread resets owner. *)
Theorem C78_static_race_refuted :
  exists tr s, run (start false) tr s /\
    map fst tr = [LLock 1; LStep 1; LStep 1; LLock 2; LStep 2; LStep 1; LStep 1; LStep 1] /\ ~ exclusive s.
Proof. apply (both_refutes false _ 1 2); [discriminate|reflexivity]. Qed.
Print Assumptions C78_static_race_refuted.

(* Two trylocks of a statically initialised mutex may write through NULL. *)
Theorem C78_static_null_refuted :
  exec (start false) [LTry 1; LTry 2; LStep 1; LStep 2] = Undef.
Proof. reflexivity. Qed.
Print Assumptions C78_static_null_refuted.

(* pthread_mutex_trylock looks at owner and then calls lock: it may block. *)
Theorem C78_trylock_blocks_refuted :
  exists tr s, run (start true) tr s /\ map fst tr = [LTry 1; LTry 2; LStep 1; LStep 2] /\ pcs s 2 = Wait true.
Proof.
  destruct (exec (start true) [LTry 1; LTry 2; LStep 1; LStep 2]) as [s r| |] eqn:E; [|discriminate|discriminate].
  destruct (exec_run _ _ _ _ E) as (tr & R & M). exists tr, s. split; [exact R|]. split; [exact M|].
  vm_compute in E. injection E as <- _. reflexivity.
Qed.
Print Assumptions C78_trylock_blocks_refuted.
