(** C34, C65: call_once. *)
From Coq Require Import ZArith List Bool Arith Lia.
From Verif.Park Require Import Model.
From Verif.Once Require Import Spec Model Proofs.
Import ListNotations.
Open Scope nat_scope.

(** Every interleaving of any number of calls (threads may call again) is a legal history: the function starts once, every
    return comes after its end, exactly the call that ran it returns true; no park/unpark mismatch aborts. *)
Theorem C34_exactly_once : forall s, reach s -> ab s = false /\ exists x, legal (log s) = Some x.
Proof. intros s R. destruct (reach_inv s R) as (A & L & x & LG & _). eauto. Qed.
Print Assumptions C34_exactly_once.
(** What legality says: at most one start; none returned before completion; at most one call returned true. *)
Theorem C34_legal_meaning : forall l x, legal l = Some x ->
  match x with
  | SNone => cnt is_start l = 0 /\ cnt is_ret l = 0 /\ cnt is_win l = 0
  | Running _ => cnt is_start l = 1 /\ cnt is_ret l = 0 /\ cnt is_win l = 0
  | Complete o => cnt is_start l = 1 /\ cnt is_win l = match o with Some _ => 0 | None => 1 end
  end.
Proof. exact legal_counts. Qed.
Print Assumptions C34_legal_meaning.
(** Once the call that ran the function has returned nobody is parked, and whoever is about to park comes straight back. *)
Theorem C34_nobody_stays_parked : forall s, reach s -> cnt is_win (log s) = 1 ->
  forall t, pc s t <> OBlocked /\ (pc s t = OPark -> exists s', step s t false = Some s' /\ pc s' t = OIdle).
Proof. exact nobody_parked. Qed.
Print Assumptions C34_nobody_stays_parked.
(** The running call always gets on: its next step is possible, and if it spins, the thread it waits for is about to write
    the link it waits for. *)
Theorem C34_winner_progress : forall s t, reach s -> isW (pc s t) = true ->
  exists s', step s t false = Some s' /\
    (s' = s -> exists u e s'', pc s u = OPushN e /\ step s u false = Some s'' /\ next s'' u <> N1).
Proof. exact walk_progress. Qed.
Print Assumptions C34_winner_progress.
(** The state documented for a completed flag is never stored: the fast path of later calls is never taken (and the debug
    build's verifications, once.hfa:62, 103, 115, fail). *)
Theorem C34_ready_refuted : forall s, reach s -> fs s <> FReady.
Proof.
  intros s R. destruct (reach_inv s R) as (_ & L & x & _ & _ & _ & _ & _ & PH). intros E. unfold phase in PH. rewrite E in PH. exact PH.
Qed.
Print Assumptions C34_ready_refuted.

Fixpoint go (s : st) (l : list nat) : option st :=
  match l with [] => Some s | t :: l => match step s t false with Some s' => go s' l | None => None end end.
Lemma go_reach : forall l s s', reach s -> go s l = Some s' -> reach s'.
Proof.
  induction l as [|a l IH]; intros s s' H E; cbn [go] in E; [inversion E; subst; exact H|].
  destruct (step s a false) as [t|] eqn:T; [|discriminate]. exact (IH t s' (rS _ _ _ _ H T) E).
Qed.
(** C65: the calling thread's intrusive link is null again when call_once returns (queues require it): false, both for a
    caller that found the list poisoned (1p) and for one that was pushed behind another (a thread pointer). *)
Theorem C65_link_left_dirty_refuted :
  (exists s, reach s /\ pc s 1 = OIdle /\ In (ERet 1 false) (log s) /\ next s 1 = N1) /\
  (exists s, reach s /\ pc s 2 = OIdle /\ In (ERet 2 false) (log s) /\ next s 2 = NT 1).
Proof.
  split.
  - destruct (go init [0; 0; 0; 0; 0; 0; 0; 1; 1; 1; 1]) as [s|] eqn:E; [|vm_compute in E; discriminate].
    exists s. split; [exact (go_reach _ _ _ r0 E)|]. vm_compute in E. inversion E; subst; clear E. cbn. auto 10.
  - destruct (go init [0; 0; 1; 1; 1; 1; 1; 1; 1; 2; 2; 2; 2; 2; 2; 2; 0; 0; 0; 0; 0; 0; 0; 0; 0]) as [s|] eqn:E; [|vm_compute in E; discriminate].
    exists s. split; [exact (go_reach _ _ _ r0 E)|]. vm_compute in E. inversion E; subst; clear E. cbn. auto 10.
Qed.
Print Assumptions C65_link_left_dirty_refuted.

(** Thread 0 runs the function; 1 parks; 2 is pushed but has not parked when it is unparked; 3 comes late. *)
Example C34_example : option_map (fun s => (rev (log s), map (pc s) [0; 1; 2; 3]))
  (go init [0; 0; 1; 1; 1; 1; 1; 1; 1; 2; 2; 2; 2; 2; 0; 0; 0; 0; 0; 2; 0; 0; 0; 0; 0; 2; 3; 3; 3; 3])
  = Some ([EStart 0; EEnd 0; ERet 1 false; ERet 0 true; ERet 2 false; ERet 3 false], [OIdle; OIdle; OIdle; OIdle]).
Proof. vm_compute. reflexivity. Qed.
