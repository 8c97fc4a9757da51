(** C32: kernel futures. *)
From Coq Require Import List Bool Arith Lia.
From Verif.KFuture Require Import Spec Model Proofs.
Import ListNotations.

(** Every interleaving of a client that registers, waits or retracts, resets, abandons (not while registered) and a server
    that fulfils: the life of each registration is legal (set up, then posted and consumed, or retracted and not
    posted); no context is posted after its owner stopped waiting, the word is never touched after the future was
    freed, no abort. *)
Theorem C32_registration_history_partial : forall s, reach false s -> bad s = false /\ exists r, legal (log s) = Some r.
Proof. intros s R. destruct (reach_inv s R) as (B & r & L & _). eauto. Qed.
Print Assumptions C32_registration_history_partial.
(** In a legal history every registration of k is posted exactly once or successfully retracted, except the current one. *)
Theorem C32_posted_iff_not_retracted : forall k l r, legal l = Some r ->
  cnt (isR k) l = cnt (isP k) l + cnt (isF k) l + reg1 k r.
Proof. exact post_counts. Qed.
Print Assumptions C32_posted_iff_not_retracted.
(** The future is freed at most once, only when abandoned and the server is through, and then it has been. *)
Theorem C32_freed_once_partial : forall s, reach false s -> freed s <= 1 /\ (freed s = 1 -> cl s = CGone /\ sv s = SDone) /\
  (cl s = CGone -> sv s = SDone -> freed s = 1).
Proof. exact released_once. Qed.
Print Assumptions C32_freed_once_partial.
(** Nobody spins for ever: whenever the client spins, the server alone gets it out. *)
Theorem C32_spin_ends : forall s k, reach false s -> cl s = CSpin k \/ cl s = CWSpin k ->
  ptr s = Fulfilled \/ (exists s1, step false s AServer = Some s1 /\ ptr s1 = Fulfilled) \/
  (exists s1 s2, step false s AServer = Some s1 /\ step false s1 AServer = Some s2 /\ ptr s2 = Fulfilled).
Proof.
  intros s k R C. destruct (reach_inv s R) as (B & r & L & H).
  assert (G : reg_st s k r /\ (ptr s <> Ctx k \/ os s k = true)) by (destruct C as [C|C]; rewrite C in H; tauto). clear H.
  destruct G as [G N]. unfold reg_st in G. unfold step.
  destruct G as [(P & S & _ & O)|[(P & S & _)|[(P & S & _)|(P & S & _)]]].
  - destruct N; congruence.
  - rewrite S. right. right. eexists _, _. split; [reflexivity|]. cbn. split; reflexivity.
  - rewrite S. right. left. eexists. split; reflexivity.
  - left. exact P.
Qed.
Print Assumptions C32_spin_ends.
(** The full statement, where the client may abandon while still registered: false, both sides free the future. *)
Theorem C32_abandon_registered_refuted : exists s, reach true s /\ freed s = 2 /\ cl s = CGone /\ sv s = SDone.
Proof.
  assert (R : forall l s, reach true s -> match fold_left (fun o a => match o with Some s => step true s a | None => None end) l (Some s) with
    Some s' => reach true s' | None => True end).
  { induction l as [|a l IH]; intros s Rs; cbn; [exact Rs|]. destruct (step true s a) eqn:E.
    - apply IH. exact (rS _ _ _ _ Rs E).
    - clear. induction l; cbn; auto. }
  specialize (R [ASetup 7; AClient; AAbandon; AServer] init (r0 _)). cbn in R.
  eexists. split; [exact R|]. cbn. auto.
Qed.
Print Assumptions C32_abandon_registered_refuted.

Fixpoint go (s : st) (l : list actor) : option st :=
  match l with [] => Some s | a :: l => match step false s a with Some s' => go s' l | None => None end end.
(** Retract wins the race against a server that has already read the context; it is set up again and waited for; then the
    future is abandoned. *)
Example C32_example : option_map (fun s => (ptr s, freed s, bad s, rev (log s)))
  (go init [ASetup 1; AClient; AServer; ARetract; AServer; ASetup 1; AServer; AClient; AServer; AServer; AServer; AServer; AWaited;
            AClient; AServer; AClient; AAbandon])
  = Some (Abandoned, 1, false, [EReg 1; ERetract 1 false; EReg 1; EPost 1; EWaited 1]).
Proof. vm_compute. reflexivity. Qed.
