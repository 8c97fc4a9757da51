From Coq Require Import ZArith Bool Lia ZifyBool Arith.
From Verif.Park Require Import Model Spec.
Open Scope Z_scope.

(** The invariant of a run that has not stopped: where the thread is determines ticket, ready-queue entries and the
    balance of parks and unparks. *)
Definition Good (s : st) : Prop :=
  let d := Z.of_nat (unparks s) - Z.of_nat (parks s) in
  match pc s with
  | Run | SwitchY => (ticket s = 0 \/ ticket s = 1) /\ rdy s = 0%nat /\ d = ticket s
  | Switch => (ticket s = 0 \/ ticket s = 1) /\ rdy s = 0%nat /\ d + 1 = ticket s
  | Off => (ticket s = -1 /\ rdy s = 0%nat /\ d = -1) \/ ((ticket s = 0 \/ ticket s = 1) /\ rdy s = 1%nat /\ d = ticket s)
  | Halt | Gone => ticket s = DEAD /\ rdy s = 0%nat
  end.
Definition Inv (s : st) : Prop :=
  match wrong s with
  | None => Good s
  | Some MismatchUnpark => (parks s + 2 <= unparks s)%nat \/ (pc s = Switch /\ parks s + 1 <= unparks s)%nat \/ pc s = Halt \/ pc s = Gone
  | Some PendingAtExit => pc s = Run /\ unparks s = S (parks s)
  | Some MismatchPark => False
  | Some RunTwice => False
  end.

Lemma step_inv : forall s a s', Inv s -> step s a = Some s' -> Inv s'.
Proof.
  intros [t p r w n m] a s' H E. unfold Inv, Good, step, park_sub, unpark_add, BLOCKED, RUNNING, UNBLOCK, DEAD in *.
  cbn [ticket pc rdy wrong parks unparks] in *. destruct w as [w|]; [discriminate E|].
  destruct a, p; cbn [fst snd] in *; try discriminate E.
  all: repeat match type of E with
    | context [if ?b then _ else _] => destruct b eqn:?
    | match ?x with O => _ | S _ => _ end = _ => destruct x eqn:?
    end; try discriminate E; inversion E; subst; clear E; cbn [ticket pc rdy wrong parks unparks]; try tauto; try lia.
  - split; [reflexivity|lia].
  - right. left. split; [reflexivity|lia].
Qed.
Lemma reach_inv : forall s, reach s -> Inv s.
Proof.
  intros s R. induction R as [|s a s' R IH E]; [|exact (step_inv _ _ _ IH E)].
  unfold Inv, Good, init, RUNNING. cbn. right. auto.
Qed.

Lemma asleep_unmatched : forall s, reach s -> wrong s = None -> pc s = Off -> rdy s = 0%nat -> unmatched (parks s) (unparks s).
Proof.
  intros s R W P Q. pose proof (reach_inv s R) as I. unfold Inv, Good, unmatched in *. rewrite W, P in I. lia.
Qed.
Lemma ready_once : forall s, reach s -> wrong s <> Some RunTwice /\ wrong s <> Some MismatchPark /\
  (wrong s = None -> (rdy s <= 1)%nat /\ (rdy s = 1%nat -> pc s = Off)).
Proof.
  intros s R. pose proof (reach_inv s R) as I. unfold Inv, Good in *. destruct (wrong s) as [[]|] eqn:W; try tauto.
  - repeat split; discriminate.
  - repeat split; discriminate.
  - split; [discriminate|]. split; [discriminate|]. intros _. destruct (pc s); split; auto; try lia.
Qed.
Lemma run_matched : forall s, reach s -> wrong s = None -> pc s = Run -> may_run (parks s) (unparks s).
Proof.
  intros s R W P. pose proof (reach_inv s R) as I. unfold Inv, Good, may_run in *. rewrite W, P in I. lia.
Qed.
Lemma unpark_aborts : forall s s', reach s -> step s AUnpark = Some s' ->
  (wrong s' <> None <-> (pc s = Halt \/ pc s = Gone \/ too_many (parks s) (unparks s) /\ pc s <> Switch \/
     parks s = unparks s /\ pc s = Switch)).
Proof.
  intros s s' R E. pose proof (reach_inv s R) as I. unfold Inv, Good, too_many, step, unpark_add, BLOCKED, RUNNING, DEAD in *.
  destruct (wrong s) as [w|] eqn:W; [discriminate E|].
  destruct (pc s) eqn:P.
  all: destruct (ticket s =? 0) eqn:T0; [|destruct (ticket s =? -1) eqn:T1]; inversion E; subst; cbn [wrong];
    (split; [intros N; try (exfalso; apply N; reflexivity) | intros N; try discriminate]).
  all: try tauto; try lia.
  all: try (right; right; left; split; [lia|discriminate]).
  all: try (right; right; right; split; [lia|reflexivity]).
  all: try (destruct N as [N|[N|[[N N']|[N N']]]]; try discriminate; try congruence; lia).
Qed.

Lemma unpark_resumes : forall s, reach s -> wrong s = None -> pc s = Off \/ pc s = Switch -> (parks s <= unparks s)%nat ->
  exists s1, (step s ARun = Some s1 \/ step s AKernel = Some s1) /\ pc s1 = Run /\ wrong s1 = None.
Proof.
  intros s R W P L. pose proof (reach_inv s R) as I. unfold Inv, Good in I. rewrite W in I. unfold step. rewrite W.
  destruct P as [P|P]; rewrite P in *.
  - assert (rdy s = 1%nat) as -> by lia. eexists. split; [left; reflexivity|]. cbn. auto.
  - unfold park_sub, RUNNING, UNBLOCK. assert (ticket s = 1) as -> by lia. eexists. split; [right; reflexivity|]. cbn. auto.
Qed.
