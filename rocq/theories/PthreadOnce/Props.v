(* C80: pthread_once. *)

From Coq Require Import List Bool Arith Lia.
From Verif.PthreadOnce Require Import Model Spec Proofs.
Import ListNotations.

(* If no init routine calls pthread_once on its own control, each init routine
   is entered at most once.  Missing for the full statement: the calls this
   excludes, see C80_reentrant_refuted. *)
Theorem C80_once_partial : forall tr s, nrun start tr s -> forall c, begun s c <= 1 /\ ended s c <= begun s c.
Proof.
  intros tr s R c. unfold begun, ended. pose proof (n_run _ _ _ R l_start c_start n_start) as [N1 N2 N3 N4].
  destruct (lc_run _ _ _ (nrun_run _ _ _ R) l_start c_start) as [_ [F K]].
  rewrite (K c). split; [|lia]. unfold cnt. pose proof (N3 c).
  destruct (in_dec Nat.eq_dec c (hold s)) as [I|I].
  - pose proof (proj1 (NoDup_count_occ Nat.eq_dec (hold s)) N1 c) as Q.
    pose proof (N2 c I) as FL. destruct (finished s c) eqn:Z; [lia|].
    assert (flag s c = true) by (apply F; lia). congruence.
  - apply (count_occ_not_In Nat.eq_dec) in I. lia.
Qed.
Print Assumptions C80_once_partial.

(* When a call returns, the init routine of its control has been run to the end. *)
Theorem C80_returns_after : forall tr s l s1 r c, run start tr s -> step s l = Ok s1 r -> returned r c ->
  0 < ended s1 c.
Proof.
  intros tr s l s1 r c R E Q. destruct (lc_run _ _ _ R l_start c_start) as [H K].
  pose proof (c_step _ _ _ _ H K E) as [F1 _]. apply F1.
  destruct (step_cases _ _ _ _ H E) as [(_ & -> & _ & _ & X)|[(t & d & _ & _ & _ & _ & _ & _ & _ & ->)|(d & st & _ & _ & -> & _ & _ & ->)]].
  - apply X. exact Q.
  - discriminate.
  - injection Q as ->. apply upd_same.
Qed.
Print Assumptions C80_returns_after.

(* So in the same executions it has run exactly once, then and for good. *)
Theorem C80_exactly_partial : forall tr s l s1 r c tr1 s2,
  nrun start tr s -> not_reentrant s l -> step s l = Ok s1 r -> returned r c -> nrun s1 tr1 s2 ->
  begun s2 c = 1 /\ ended s2 c = 1.
Proof.
  intros tr s l s1 r c tr1 s2 R NR E Q R1.
  assert (J : forall x a y, nrun x a y -> forall b z, nrun y b z -> nrun x (a ++ b) z).
  { induction 1; intros; [assumption|]. cbn [app]. econstructor; eauto. }
  assert (R2 : nrun start (tr ++ (l, r) :: tr1) s2) by (eapply J; [exact R|econstructor; eauto]).
  pose proof (C80_once_partial _ _ R2 c) as [A B].
  assert (P : 0 < ended s1 c) by (eapply C80_returns_after; [apply nrun_run; exact R|exact E|exact Q]).
  assert (H1 : L s1 /\ C s1).
  { destruct (lc_run _ _ _ (nrun_run _ _ _ R) l_start c_start) as [H K]. split; [eapply l_step|eapply c_step]; eauto. }
  assert (M : ended s1 c <= ended s2 c).
  { clear - R1 H1. destruct H1 as [H K]. revert H K. unfold ended.
    induction R1 as [s|s l r s3 tr s2 NR E R IH]; intros H K; [lia|].
    etransitivity; [|apply IH; [eapply l_step|eapply c_step]; eauto].
    destruct (step_cases _ _ _ _ H E) as [(_ & _ & _ & -> & _)|[(t & d & _ & _ & _ & _ & _ & _ & -> & _)|(d & st & _ & _ & _ & _ & -> & _)]]; try lia.
    destruct (Nat.eq_dec c d) as [->|X]; [rewrite upd_same; lia|rewrite upd_other by auto; lia]. }
  lia.
Qed.
Print Assumptions C80_exactly_partial.

(* No deadlock by pthread_once itself: if a thread waits, another one is inside
   and can go on as soon as its init routine returns. *)
Theorem C80_no_deadlock : forall tr s t, run start tr s -> blocked s t ->
  exists u, u <> t /\ ((exists s1 r, step s (LGo u) = Ok s1 r) \/
                       (in_init s u /\ exists s1 r, step s (LEnd u) = Ok s1 r)).
Proof.
  intros tr s t R (c & M). destruct (lc_run _ _ _ R l_start c_start) as [[O Q D] _].
  destruct (owner s) as [w|].
  - destruct O as (RE & P & W & F). exists w. split; [intros ->; rewrite M in W; discriminate|].
    destruct (modes s w) as [|d|d] eqn:MW.
    + right. unfold in_init. cbn [step]. rewrite MW. cbn [got] in RE. destruct (stack s w) as [|d st]; [cbn in RE; lia|].
      split; [discriminate|]. eexists _, _. reflexivity.
    + discriminate.
    + left. cbn [step]. rewrite MW. unfold go. destruct (flag s d); eexists _, _; reflexivity.
  - destruct O as (_ & _ & F). destruct (F t). congruence.
Qed.
Print Assumptions C80_no_deadlock.

(* Null pointers. *)
Theorem C80_null : forall s t c i, modes s t = Run -> c = None \/ i = false -> step s (LCall t c i) = Ok s (RErr 22).
Proof. intros s t c i M [->| ->]; cbn [step]; rewrite M; [reflexivity|]. destruct c; reflexivity. Qed.
Print Assumptions C80_null.

(* Threads 1 and 2 race for control 7, thread 3 comes later; the init routine
   calls pthread_once on control 8. *)
Example C80_example :
  match exec start [LCall 1 (Some 7) true; LCall 2 (Some 7) true; LGo 1; LCall 1 (Some 8) true; LGo 1; LEnd 1;
                    LEnd 1; LGo 2; LCall 3 (Some 7) true; LGo 3] with
  | Ok s _ => begun s 7 = 1 /\ ended s 7 = 1 /\ begun s 8 = 1 /\ owner s = None /\ modes s 3 = Run
  | _ => False
  end.
Proof. vm_compute. repeat split. Qed.

(* An init routine that calls pthread_once on its own control is entered again
   instead of waiting for itself, to any depth. *)
Fixpoint nest (n c : nat) : list label :=
  match n with 0 => [] | S m => LCall 1 (Some c) true :: LGo 1 :: nest m c end.

Theorem C80_reentrant_refuted : forall n c, exists s, exec start (nest n c) = Ok s RNone /\ begun s c = n.
Proof.
  intros n c.
  assert (G : forall n s, (owner s = None \/ owner s = Some 1) -> modes s 1 = Run -> flag s c = false ->
              exists s1, exec s (nest n c) = Ok s1 RNone /\ begun s1 c = n + begun s c).
  { clear n. induction n as [|n IH]; intros s EO M F; cbn [nest exec]; [eauto|].
    cbn [step]. rewrite M. cbn [call negb].
    assert (LK : exists s2, lock s 1 c = s2 /\ owner s2 = Some 1 /\ modes s2 1 = Got c /\ flag s2 = flag s /\ started s2 = started s).
    { eexists. split; [reflexivity|]. unfold lock. destruct EO as [-> | ->]; cbn; auto. }
    destruct LK as (s2 & -> & O2 & M2 & F2 & S2). cbn [step]. rewrite M2. unfold go. rewrite F2, F.
    match goal with |- context [exec ?x _] => destruct (IH x) as (s1 & E1 & B1) end; cbn; auto.
    exists s1. split; [exact E1|]. rewrite B1. unfold begun. cbn [started]. rewrite upd_same, S2. lia. }
  destruct (G n start) as (s & E & B); auto. exists s. split; [exact E|]. rewrite B. unfold begun, start. cbn. lia.
Qed.
Print Assumptions C80_reentrant_refuted.

(* Different controls are not independent: while one thread is inside an init
   routine, no other thread's pthread_once returns, whatever its control, even
   if that one was done long ago. *)
Theorem C80_independent_refuted : forall tr s t tr1 s2,
  run start tr s -> in_init s t -> run s tr1 s2 ->
  Forall (fun x => label_thread (fst x) <> t) tr1 ->
  (forall l r c, In (l, r) tr1 -> ~ returned r c) /\
  (forall u c, u <> t -> modes s2 u = Run -> exists s3, step s2 (LCall u (Some c) true) = Ok s3 RNone /\ blocked s3 u).
Proof.
  intros tr s t tr1 s2 R I R1 F. pose proof (l_run _ _ _ R l_start) as H. unfold in_init in I.
  assert (G : stack s2 t <> [] /\ L s2 /\ forall l r c, In (l, r) tr1 -> ~ returned r c).
  { clear R. induction R1 as [s|s l r s1 tr1 s2 E R IH]; [split; [auto|split; [auto|intros l r c []]]|].
    inversion F; subst. cbn [fst] in *. pose proof (owner_in _ _ H I) as EO.
    pose proof (others_empty _ _ H EO) as OE.
    assert (X : stack s1 t = stack s t /\ forall c, ~ returned r c).
    { destruct l as [u o i|u|u]; cbn [step label_thread] in *; destruct (modes s u) as [|d|d] eqn:M; try discriminate.
      - destruct o as [d|]; cbn [call] in E; [|injection E as <- <-; (split; [reflexivity|intros; discriminate])].
        destruct i; cbn [negb] in E; injection E as <- <-; [|(split; [reflexivity|intros; discriminate])].
        destruct (lock_same s u d) as (_ & _ & _ & ->). (split; [reflexivity|intros; discriminate]).
      - pose proof (owner_got _ _ _ H M). congruence.
      - rewrite OE in E by auto. discriminate. }
    destruct X as (X1 & X2). destruct IH as (A & B & D); [now rewrite X1|assumption|eapply l_step; eauto|].
    split; [auto|split; [auto|]]. intros l' r' c [Q|Q]; [injection Q as <- <-; apply X2|eauto]. }
  destruct G as (A & B & D). split; [exact D|]. intros u c X M. pose proof (owner_in _ _ B A) as EO.
  eexists. cbn [step]. rewrite M. cbn [call negb]. split; [reflexivity|]. exists c. unfold lock. rewrite EO. cbn [is_me].
  assert (Y : Nat.eqb t u = false) by (apply Nat.eqb_neq; auto). rewrite Y. cbn. unfold upd. now rewrite Nat.eqb_refl.
Qed.
Print Assumptions C80_independent_refuted.

(* Control 8 is done; thread 1 is inside the init routine of control 7 and waits
   there for thread 2, whose pthread_once on 8 does not return. *)
Example C80_independent_example :
  match exec start [LCall 1 (Some 8) true; LGo 1; LEnd 1; LCall 1 (Some 7) true; LGo 1; LCall 2 (Some 8) true] with
  | Ok s _ => flag s 8 = true /\ modes s 2 = Wait 8 /\ step s (LGo 2) = Stuck
  | _ => False
  end.
Proof. vm_compute. repeat split. Qed.
