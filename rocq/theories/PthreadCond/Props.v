(* C79: condition variables of the pthread layer. *)

From Coq Require Import List Bool Arith ZArith Lia.
From Verif.PthreadCond Require Import Model Spec Proofs.
Import ListNotations.

(* The mutex stays exclusive through waits, signals and timeouts, and a thread
   that waits does not hold it. *)
Theorem C79_exclusive : forall i t0 tr s, run (start i t0) tr s ->
  exclusive s /\ (forall t, pcs s t <> Idle -> is_enq (pcs s t) = false -> held s t = 0).
Proof.
  intros i t0 tr s R. destruct (inv_run _ _ _ R (inv_start i t0)) as [L O]. split; [apply inv_excl; exact O|].
  intros t NI NE. destruct O as [O _]. destruct (owner s) as [w|]; [|apply O].
  destruct O as (_ & _ & Q & F). apply F. intros ->. destruct Q; congruence.
Qed.
Print Assumptions C79_exclusive.

(* A wait returns with the mutex held as often as before. *)
Theorem C79_depth_restored : forall i t0 tr s t abs s1 r tr1 s2,
  run (start i t0) tr s -> step s (LWait t abs) = Ok s1 r ->
  run s1 tr1 s2 -> Forall (fun x => by_other t (fst x)) tr1 -> runs s2 t ->
  held s2 t = held s t /\ 0 < held s t.
Proof.
  intros i t0 tr s t abs s1 r tr1 s2 R E R1 F HR.
  pose proof (inv_run _ _ _ R (inv_start i t0)) as H. pose proof (inv_step _ _ _ _ H E) as H1.
  cbn [step] in E. destruct (pcs s t) eqn:HP; try discriminate. unfold do_wait in E.
  destruct (is_me (owner s) t) eqn:M; cbn [negb] in E; [|discriminate]. destruct (negb (ready s)); [discriminate|].
  injection E as <- <-. apply is_me_iff in M. destruct H as [_ [O _]]. rewrite M in O.
  split; [|apply O].
  assert (K : keeps t (held s t) s2).
  { apply (keeps_run _ _ _ R1); auto. unfold keeps. cbn [pcs held]. now rewrite upd_same. }
  unfold keeps in K. rewrite HR in K. exact K.
Qed.
Print Assumptions C79_depth_restored.

(* A signal wakes the thread that has waited longest and no other, or changes
   nothing if nobody waits. *)
Theorem C79_signal_one : forall i t0 tr s t s1 r, run (start i t0) tr s -> step s (LSignal t) = Ok s1 r ->
  (forall u, In u (cond s) <-> cond_waits s u) /\
  match cond s with
  | [] => s1 = s
  | u :: c => ~ cond_waits s1 u /\ (runs s1 u \/ relocks s1 u) /\ signalled s1 u = true /\
              forall v, v <> u -> (cond_waits s1 v <-> cond_waits s v)
  end.
Proof.
  intros i t0 tr s t s1 r R E. pose proof (inv_run _ _ _ R (inv_start i t0)) as H.
  assert (C : forall s', Inv s' -> forall u, In u (cond s') <-> cond_waits s' u).
  { intros s' [L _] u. rewrite (l_cond s' None L u) by discriminate. unfold cond_waits.
    destruct (pcs s' u); cbn; split; intros; auto; try discriminate; tauto. }
  split; [apply C; exact H|]. pose proof (inv_step _ _ _ _ H E) as H1.
  cbn [step] in E. destruct (pcs s t) eqn:HP; try discriminate.
  destruct (inv_signal _ _ _ H E) as [_ TL]. unfold do_signal in E. destruct (cond s) as [|u c] eqn:EC.
  - injection E as <- <-. reflexivity.
  - cbn [tl] in TL. pose proof H as [[_ _ _ [_ N2] _] _]. rewrite EC in N2. inversion N2; subst.
    split; [rewrite <- C by exact H1; assumption|].
    split; [|split].
    + destruct (take_first s u (cond s1) true H EC) as (L & O & IC).
      destruct (on_notify _ u) as [s2|] eqn:EN; [|discriminate]. injection E as <- <-.
      unfold on_notify in EN. simp. cbn [owner pcs set_sig set_cond] in EN. destruct (owner s).
      * destruct (pcs s u) as [| | |dl sv|]; try discriminate. injection EN as <-. right. unfold relocks. simp.
        rewrite upd_same. exact I.
      * injection EN as <-. left. unfold runs, grant. simp. now rewrite upd_same.
    + destruct (on_notify _ u) as [s2|] eqn:EN; [|discriminate]. injection E as <- <-.
      unfold on_notify in EN. cbn [owner pcs set_sig set_cond] in EN. destruct (owner s).
      * destruct (pcs s u) as [| | |dl sv|]; try discriminate. injection EN as <-. simp. now rewrite upd_same.
      * injection EN as <-. unfold grant. simp. now rewrite upd_same.
    + intros v D. rewrite <- (C s1 H1), <- (C s H), EC. cbn [In]. split; [auto|]. intros [->|Q]; [congruence|exact Q].
Qed.
Print Assumptions C79_signal_one.

(* A broadcast leaves nobody waiting for the condition. *)
Theorem C79_broadcast_all : forall i t0 tr s t s1 r, run (start i t0) tr s -> step s (LBroadcast t) = Ok s1 r ->
  forall u, ~ cond_waits s1 u.
Proof.
  intros i t0 tr s t s1 r R E u. pose proof (inv_run _ _ _ R (inv_start i t0)) as H.
  cbn [step] in E. destruct (pcs s t) eqn:HP; try discriminate. unfold do_broadcast in E.
  destruct (notify_list s (cond s)) as [s2|] eqn:EN; [|discriminate]. injection E as <- <-.
  destruct (inv_notify_list _ _ _ H eq_refl EN) as [[L _] C].
  intros W. assert (X : In u (cond s2)).
  { apply (l_cond s2 None L u); [discriminate|]. unfold cond_waits in W. destruct (pcs s2 u); cbn; tauto. }
  rewrite C in X. destruct X.
Qed.
Print Assumptions C79_broadcast_all.

(* If signals come from the thread that holds the mutex, nothing undefined
   happens to an initialised condition variable.  POSIX lets any thread signal;
   then it fails, see below. *)
Theorem C79_defined_partial : forall t0 tr s l, mrun (start true t0) tr s -> mannered s l -> step s l <> Undef.
Proof.
  intros t0 tr s l R M E. apply mrun_run in R.
  assert (RD : ready s = true) by (rewrite (ready_run _ _ _ R); reflexivity).
  pose proof (inv_run _ _ _ R (inv_start true t0)) as H.
  destruct l as [t|t|t a|t|t|t|t|d]; cbn [step mannered] in *.
  - destruct (pcs s t); try discriminate. unfold do_lock in E. destruct (is_me _ _); [discriminate|]. destruct (owner s); discriminate.
  - destruct (pcs s t); try discriminate. unfold do_unlock in E. destruct (negb _); discriminate.
  - destruct (pcs s t); try discriminate. unfold do_wait in E. apply is_me_iff in M. rewrite M, RD in E. discriminate.
  - destruct (pcs s t); discriminate.
  - destruct (pcs s t) eqn:HP; try discriminate. unfold do_signal in E. destruct (cond s) as [|u c] eqn:C; [discriminate|].
    destruct (take_first s u c true H C) as (L & O & IC).
    destruct (notify_defined (set_sig (set_cond s c) u true) u t O M HP IC) as (s1 & sv & EN & _). rewrite EN in E. discriminate.
  - destruct (pcs s t) eqn:HP; try discriminate. unfold do_broadcast in E.
    destruct (notify_list_defined _ s t H eq_refl M HP) as (s1 & EN). rewrite EN in E. discriminate.
  - destruct (pcs s t) as [| | |[dl|] sv|] eqn:HP; try discriminate. destruct (dl <=? now s)%Z; [|discriminate].
    unfold do_alarm in E. destruct (existsb _ _); [|discriminate].
    unfold on_notify in E. cbn [owner pcs set_sig set_cond] in E. destruct (owner s); [rewrite HP in E|]; discriminate.
  - discriminate.
Qed.
Print Assumptions C79_defined_partial.

(* Thread 1 locks twice and waits, thread 2 locks and signals and unlocks:
   thread 1 has the mutex back at depth 2. *)
Example C79_example :
  match exec (start true 0) [LLock 1; LLock 1; LWait 1 None; LLock 2; LBlock 1; LSignal 2; LUnlock 2] with
  | Ok s _ => held s 1 = 2 /\ held s 2 = 0 /\ pcs s 1 = Idle /\ signalled s 1 = true /\ cond s = []
  | _ => False
  end.
Proof. vm_compute. repeat split. Qed.

(* A thread that signals without holding the mutex, between the moment the
   waiting thread enters the list and the moment on_wait sets link_node. *)
Theorem C79_signal_race_refuted : forall t0,
  exec (start true t0) [LLock 1; LWait 1 None; LSignal 2] = Undef.
Proof. vm_compute. reflexivity. Qed.
Print Assumptions C79_signal_race_refuted.

(* A condition variable initialised by PTHREAD_COND_INITIALIZER. *)
Theorem C79_static_refuted : forall t0 tr s t abs s1 r,
  run (start false t0) tr s -> step s (LWait t abs) <> Ok s1 r.
Proof.
  intros t0 tr s t abs s1 r R E. cbn [step] in E. destruct (pcs s t); try discriminate. unfold do_wait in E.
  destruct (negb _); [discriminate|]. rewrite (ready_run _ _ _ R) in E. discriminate.
Qed.
Print Assumptions C79_static_refuted.

Example C79_static_example : exec (start false 0) [LLock 1; LWait 1 None] = Undef.
Proof. vm_compute. reflexivity. Qed.

(* pthread_cond_signal and pthread_cond_broadcast should return 0; they return
   1 exactly when a thread was waiting. *)
Theorem C79_signal_result_refuted : forall i t0 tr s t s1 r,
  run (start i t0) tr s -> (step s (LSignal t) = Ok s1 r \/ step s (LBroadcast t) = Ok s1 r) ->
  ((exists u, cond_waits s u) -> r = RInt 1) /\ ((forall u, ~ cond_waits s u) -> r = RInt 0).
Proof.
  intros i t0 tr s t s1 r R E. destruct (inv_run _ _ _ R (inv_start i t0)) as [L _].
  assert (C : forall u, In u (cond s) <-> cond_waits s u).
  { intros u. rewrite (l_cond s None L u) by discriminate. unfold cond_waits.
    destruct (pcs s u); cbn; split; intros; auto; try discriminate; tauto. }
  assert (Q : r = RInt (match cond s with [] => 0 | _ => 1 end)).
  { destruct E as [E|E]; cbn [step] in E; destruct (pcs s t); try discriminate.
    - unfold do_signal in E. destruct (cond s) as [|u c]; [injection E as <- <-; reflexivity|].
      destruct (on_notify _ u); [|discriminate]. injection E as <- <-. reflexivity.
    - unfold do_broadcast in E. destruct (notify_list _ _); [|discriminate]. injection E as <- <-. reflexivity. }
  subst r. split; intros W; destruct (cond s) as [|u c] eqn:EC; auto.
  - destruct W as (u & W). apply C in W. destruct W.
  - destruct (W u). apply C. left. reflexivity.
Qed.
Print Assumptions C79_signal_result_refuted.

(* pthread_cond_timedwait never reports ETIMEDOUT. *)
Theorem C79_timeout_result_refuted :
  (forall b, wait_result b = 0) /\
  match exec (start true 0) [LLock 1; LWait 1 (Some 500%Z); LBlock 1; LTick 600; LAlarm 1] with
  | Ok s _ => pcs s 1 = Idle /\ signalled s 1 = false /\
              wait_result (signalled s 1) <> posix_wait_result (signalled s 1)
  | _ => False
  end.
Proof. split; [reflexivity|]. vm_compute. repeat split. discriminate. Qed.
Print Assumptions C79_timeout_result_refuted.

(* The alarm of a timed wait: at once if the deadline lies ahead, and as far
   ahead as the deadline lies behind. *)
Theorem C79_deadline_exact : forall s t abs s1 r,
  step s (LWait t (Some abs)) = Ok s1 r ->
  pcs s1 t = Enq (Some (if (now s <? abs)%Z then now s else 2 * now s - abs)%Z).
Proof.
  intros s t abs s1 r E. cbn [step] in E. destruct (pcs s t); try discriminate. unfold do_wait in E.
  destruct (negb _); [discriminate|]. destruct (negb (ready s)); [discriminate|]. injection E as <- <-.
  cbn [pcs]. rewrite upd_same. unfold get_duration.
  destruct (Z.leb_spec abs (now s)); destruct (Z.ltb_spec (now s) abs); try lia; do 2 f_equal; lia.
Qed.
Print Assumptions C79_deadline_exact.

(* So it is the time POSIX asks for only if the deadline is now. *)
Theorem C79_deadline_refuted : forall s t abs s1 r,
  step s (LWait t (Some abs)) = Ok s1 r ->
  (pcs s1 t = Enq (Some (due (now s) abs)) <-> abs = now s).
Proof.
  intros s t abs s1 r E. rewrite (C79_deadline_exact _ _ _ _ _ E). unfold due.
  destruct (Z.ltb_spec (now s) abs) as [L|L]; split; intros Q.
  - assert (X : now s = Z.max (now s) abs) by congruence. lia.
  - lia.
  - assert (X : (2 * now s - abs)%Z = Z.max (now s) abs) by congruence. lia.
  - subst abs. do 2 f_equal. lia.
Qed.
Print Assumptions C79_deadline_refuted.

(* Waiting until a time an hour ahead times out at once. *)
Example C79_deadline_example :
  match exec (start true 0) [LLock 1; LWait 1 (Some 3600000000000%Z); LBlock 1; LAlarm 1] with
  | Ok s _ => pcs s 1 = Idle /\ now s = 0%Z
  | _ => False
  end.
Proof. vm_compute. split; reflexivity. Qed.
