(** C33: wait_any. *)
From Coq Require Import List Bool Arith Lia.
From Verif.KFuture Require Import Model.
From Verif.WaitAny Require Import Spec Model Proofs.
Import ListNotations.

(** A future refers to the waiter: its word is the context, or its server has taken it out and not yet posted it. *)
Definition refers (s : st) (i : nat) : Prop := fp s i = Ctx 0 \/ exists k, fv s i = SPost k.
Definition ready (s : st) (i : nat) : Prop := fp s i = Fulfilled.

(** When every set-up succeeded (the call did not return early), at any later time no future refers to the finished
    waiter and its context was never posted after the return. *)
Theorem C33_no_dangling_partial : forall n s r, 0 < n -> reach n s -> c s = ADone false r ->
  clean n (refers s) /\ dead s = 0.
Proof.
  intros n s r L H C. destruct (reach_inv n s L H) as [I _]. unfold Inv in I. rewrite C in I. destruct I as (A & D & _).
  split; [|exact D]. intros i _ Q. destruct (A i) as [[P [V|(x & V & X)]]|[P V]]; destruct Q as [Q|[k Q]]; congruence.
Qed.
Print Assumptions C33_no_dangling_partial.
(** Whichever way it returns, it returns one of the futures, and that one is complete: the local [ret] is always set. *)
Theorem C33_returns_ready : forall n s b r, 0 < n -> reach n s -> c s = ADone b r -> good_answer n (ready s) r.
Proof.
  intros n s b r L H C. destruct (reach_inv n s L H) as [I _]. unfold Inv in I. rewrite C in I.
  destruct b; destruct I as (A & I); [|destruct I as (D & I)]; destruct r; exact I.
Qed.
Print Assumptions C33_returns_ready.
(** The caller, waiting or spinning, is never stuck once the context is posted: a future past its post exists. *)
Theorem C33_wait_ends : forall n s, 0 < n -> reach n s -> c s = AWait -> os s = true -> exists s', step n s Caller = Some s'.
Proof. intros n s L H C O. cbn [step]. rewrite C, O. eauto. Qed.
Print Assumptions C33_wait_ends.

(** The full statement, including the early return when a later future is already complete: false. The futures set up
    before it keep referring to the context on the returned caller's stack; the server posts it afterwards. *)
Fixpoint go (n : nat) (s : st) (l : list actor) : option st :=
  match l with [] => Some s | a :: l => match step n s a with Some s' => go n s' l | None => None end end.
Lemma go_reach : forall n l s s', reach n s -> go n s l = Some s' -> reach n s'.
Proof.
  intros n. induction l as [|a l IH]; intros s s' H E; cbn in E; [inversion E; subst; exact H|].
  destruct (step n s a) as [t|] eqn:T; [|discriminate]. exact (IH t s' (rS _ _ _ _ H T) E).
Qed.
Theorem C33_early_return_refuted :
  (exists s r, reach 2 s /\ c s = ADone true r /\ ~ clean 2 (refers s)) /\
  (exists s r, reach 2 s /\ c s = ADone true r /\ dead s = 1).
Proof.
  split.
  - destruct (go 2 init [Server 1; Server 1; Caller; Caller; Caller]) as [s|] eqn:E; [|vm_compute in E; discriminate].
    exists s, (Some 1). split; [exact (go_reach _ _ _ _ (r0 2) E)|]. cbn in E. inversion E; subst; clear E.
    split; [reflexivity|]. intros N. apply (N 0); [lia|]. left. reflexivity.
  - destruct (go 2 init [Server 1; Server 1; Caller; Caller; Caller; Server 0; Server 0; Server 0]) as [s|] eqn:E; [|vm_compute in E; discriminate].
    exists s, (Some 1). split; [exact (go_reach _ _ _ _ (r0 2) E)|]. cbn in E. inversion E; subst; clear E. split; reflexivity.
Qed.
Print Assumptions C33_early_return_refuted.

(** Three futures, the middle one fulfilled while the caller waits; the last one's server has read the context but is
    beaten by the retract. *)
Example C33_example : option_map (fun s => (c s, fp s 0, fp s 1, fp s 2, dead s))
  (go 3 init [Caller; Caller; Caller; Caller; Caller; Caller; Server 1; Server 1; Server 2; Server 1; Caller; Caller; Caller; Caller;
              Server 1; Caller; Caller; Server 2; Server 2; Server 2])
  = Some (ADone false (Some 1), Armed, Fulfilled, Fulfilled, 0).
Proof. vm_compute. reflexivity. Qed.
