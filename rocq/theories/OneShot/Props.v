(** C31: single_sem and oneshot. *)
From Coq Require Import ZArith Bool Lia List Arith.
From Verif.Park Require Import Model.
From Verif.OneShot Require Import Spec Model Proofs.
Import ListNotations.
Open Scope nat_scope.

(** Every interleaving of one waiter and any number of posters on a single_sem is a history of the atomic signal that a
    wait consumes; no park/unpark mismatch ever aborts. *)
Theorem C31_sem_atomic : forall s, reach sem_step s -> ab s = false /\ exists o, legal false (log s) = Some (abs (ptr s), o).
Proof. intros s R. destruct (sem_inv s R) as (A & _ & o & L & _). eauto. Qed.
Print Assumptions C31_sem_atomic.
Theorem C31_oneshot_atomic : forall s, reach one_step s -> ab s = false /\ exists o, legal true (log s) = Some (abs (ptr s), o).
Proof. intros s R. destruct (one_inv s R) as (A & _ & o & L & _). eauto. Qed.
Print Assumptions C31_oneshot_atomic.

(** What legality means, in numbers: as many waits block as posts report a release (plus one if still waiting), and as
    many waits continue as were released (plus one if on its way): unparked exactly once per wait that parked. *)
Theorem C31_unparked_once : forall keep l c o, legal keep l = Some (c, o) ->
  count is_reg l = count is_release l + b2n (waitingb c) /\ count is_release l = count is_wake l + b2n o /\
  (waitingb c = true -> o = false).
Proof. exact counts. Qed.
Print Assumptions C31_unparked_once.
(** A one-shot is satisfied exactly when it has been posted, for ever. *)
Theorem C31_oneshot_stays : forall l c o, legal true l = Some (c, o) -> (existsb is_post l = true <-> c = Full).
Proof. exact keep_done. Qed.
Print Assumptions C31_oneshot_stays.

(** A parked waiter is unsignalled (its registration is in the cell), or some poster's next step resumes it. *)
Theorem C31_sem_not_stranded : forall s, reach sem_step s -> w s = WBlocked ->
  ptr s = PT \/ exists p s', sem_step s (AQ p) = Some s' /\ w s' = WIdle.
Proof.
  intros s R W. destruct (blocked_phase _ s (sem_inv s R) W) as [H|(p & Q & H)]; [auto|right].
  exists p, (do_unpark s p). split; [|exact H]. cbn [sem_step]. now rewrite Q.
Qed.
Print Assumptions C31_sem_not_stranded.
Theorem C31_oneshot_not_stranded : forall s, reach one_step s -> w s = WBlocked ->
  ptr s = PT \/ exists p s', one_step s (AQ p) = Some s' /\ w s' = WIdle.
Proof.
  intros s R W. destruct (blocked_phase _ s (one_inv s R) W) as [H|(p & Q & H)]; [auto|right].
  exists p, (do_unpark s p). split; [|exact H]. cbn [one_step]. now rewrite Q.
Qed.
Print Assumptions C31_oneshot_not_stranded.
(** ... and an unsignalled parked waiter is released by the next post, run alone from any point: two (or three) steps. *)
Theorem C31_post_releases : forall s p, reach sem_step s -> ptr s = PT -> q s p = QIdle -> w s = WBlocked ->
  exists s1 s2 s3, sem_step s (AQ p) = Some s1 /\ sem_step s1 (AQ p) = Some s2 /\ sem_step s2 (AQ p) = Some s3 /\ w s3 = WIdle.
Proof.
  intros s p R P Q W. destruct (sem_inv s R) as (_ & _ & o & _ & H). unfold phase in H. rewrite W, P in H.
  destruct H as [(_ & T & _)|(N & _)]; [|congruence].
  cbn [sem_step]. rewrite Q, P. eexists _, _, _. split; [reflexivity|]. cbn [sem_step ptr tick w q ab log].
  rewrite upd_same. cbn [cellv_eqb]. split; [reflexivity|]. cbn [sem_step ptr tick w q ab log]. rewrite upd_same.
  split; [reflexivity|]. unfold do_unpark, unpark_add, RUNNING, BLOCKED. cbn [tick]. rewrite T. reflexivity.
Qed.
Print Assumptions C31_post_releases.

Fixpoint go (step : st -> actor -> option st) (s : st) (l : list actor) : option st :=
  match l with [] => Some s | a :: l => match step s a with Some s' => go step s' l | None => None end end.
(** The waiter reads, a post slips in before its CAS, the wait takes it; next wait blocks while two posters race. *)
Example C31_example :
  option_map (fun s => (ptr s, w s, rev (log s)))
    (go sem_step init [AW; AQ 0; AQ 0; AW; AW; AW; AW; AW; AQ 1; AQ 2; AQ 1; AQ 2; AW; AQ 1; AQ 2; AQ 2])
  = Some (P1, WIdle, [Post 0 false; Take; Reg; Post 1 true; Wake; Post 2 false]) /\
  option_map (fun s => (ptr s, w s, rev (log s)))
    (go one_step init [AW; AW; AQ 0; AQ 1; AQ 0; AW; AW])
  = Some (P1, WIdle, [Reg; Post 0 true; Post 1 false; Wake; Take]).
Proof. vm_compute. auto. Qed.
