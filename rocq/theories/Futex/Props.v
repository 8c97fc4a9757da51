From Coq Require Import List Bool Arith Lia.
From Verif.Futex Require Import Spec Gen.
From Verif.Futex Require Mutex MutexProofs GoMutex GoProofs Backoff BackoffProofs.
Import ListNotations.

(** Inside: from the successful acquisition to the atomic release in [unlock]. *)

(** ---- futex_mutex ---- *)
Theorem C29_futex_exclusive : forall s, Mutex.reach s -> exclusive (fun t => match Mutex.pcs s t with Mutex.Hold | Mutex.Unl => true | _ => false end) /\
  (Mutex.val s = 0 <-> forall t, match Mutex.pcs s t with Mutex.Hold | Mutex.Unl => true | _ => false end = false).
Proof.
  intros s H. apply MutexProofs.reach_inv in H. destruct H as (EX & Z0 & Z1 & _). split; [exact EX|]. split; [exact Z0|].
  intros N. destruct (Nat.eq_dec (Mutex.val s) 0) as [E|E]; [exact E|]. destruct (Z1 E) as [t T]. specialize (N t). unfold MutexProofs.holds in T. congruence.
Qed.
Print Assumptions C29_futex_exclusive.
(** On its way: about to exchange the word for 2, about to sleep only if it is still 2, or about to wake a sleeper. *)
Theorem C29_futex_no_lost_wakeup : forall s, Mutex.reach s ->
  no_lost_wakeup (Mutex.zz s) (Mutex.val s =? 2) (fun t => match Mutex.pcs s t with Mutex.Xchg | Mutex.FWait | Mutex.Wake => true | _ => false end) /\
  (forall t, In t (Mutex.zz s) <-> Mutex.pcs s t = Mutex.Asleep).
Proof.
  intros s H. apply MutexProofs.reach_inv in H. destruct H as (_ & _ & _ & _ & ZZ & _ & LW). split; [|exact ZZ].
  intros N. destruct (LW N) as [X|X]; [left; now apply Nat.eqb_eq|now right].
Qed.
Print Assumptions C29_futex_no_lost_wakeup.
(** A thread on its way can always take its next step; in at most two own steps a waker wakes or a taker marks the word. *)
Theorem C29_futex_carrier_steps : forall s t c, Mutex.reach s ->
  (Mutex.pcs s t = Mutex.Xchg -> exists s', Mutex.step s t c = Some s' /\ Mutex.val s' = 2) /\
  (Mutex.pcs s t = Mutex.FWait -> exists s', Mutex.step s t c = Some s' /\ (Mutex.val s' = 2 \/ Mutex.pcs s' t = Mutex.Xchg)) /\
  (Mutex.pcs s t = Mutex.Wake -> Mutex.zz s <> [] -> exists s' x, Mutex.step s t c = Some s' /\ In x (Mutex.zz s) /\ Mutex.pcs s' x = Mutex.Xchg /\ length (Mutex.zz s') < length (Mutex.zz s)).
Proof.
  intros s t c H. apply MutexProofs.reach_inv in H. destruct H as (_ & _ & _ & _ & ZZ & ND & _). unfold Mutex.step. split; [|split].
  - intros K. rewrite K. eexists. split; reflexivity.
  - intros K. rewrite K. destruct (Nat.eqb_spec (Mutex.val s) 2) as [E|E]; eexists; (split; [reflexivity|]); cbn; [now left|right; apply MutexProofs.upd_same].
  - intros K N. rewrite K. destruct (Mutex.zz s) as [|y z] eqn:Z; [congruence|]. eexists. exists (nth c (y :: z) y). split; [reflexivity|].
    assert (XI : In (nth c (y :: z) y) (y :: z)) by (destruct (nth_in_or_default c (y :: z) y) as [F|F]; [exact F|rewrite F; now left]).
    split; [exact XI|]. cbn [Mutex.pcs Mutex.zz]. split; [apply MutexProofs.upd_same|].
    revert XI. generalize (nth c (y :: z) y). clear. intros x. generalize (y :: z). unfold Mutex.del.
    induction l as [|a l IH]; cbn [In filter length]; [intros []|]. intros X. destruct (Nat.eqb_spec a x) as [E|E]; cbn [negb length].
    + clear. induction l as [|b l IH]; cbn [filter length]; [lia|]. destruct (negb (b =? x)); cbn [length]; lia.
    + destruct X as [X|X]; [congruence|]. specialize (IH X). lia.
Qed.
Print Assumptions C29_futex_carrier_steps.

(** ---- go_mutex ---- *)
Theorem C29_go_exclusive : forall s, GoMutex.reach s -> exclusive (fun t => match GoMutex.pcs s t with GoMutex.Hold | GoMutex.Unl => true | _ => false end) /\
  (GoMutex.val s = 0 <-> forall t, match GoMutex.pcs s t with GoMutex.Hold | GoMutex.Unl => true | _ => false end = false).
Proof.
  intros s H. apply GoProofs.reach_inv in H. destruct H as (EX & Z0 & Z1 & _). split; [exact EX|]. split; [exact Z0|].
  intros N. destruct (Nat.eq_dec (GoMutex.val s) 0) as [E|E]; [exact E|]. destruct (Z1 E) as [t T]. specialize (N t). unfold GoProofs.holds in T. congruence.
Qed.
Print Assumptions C29_go_exclusive.
(** Here a spinning thread that replaced the mark 2 by 1 is on its way to put it back. *)
Theorem C29_go_no_lost_wakeup : forall s, GoMutex.reach s ->
  no_lost_wakeup (GoMutex.zz s) (GoMutex.val s =? 2)
    (fun t => match GoMutex.pcs s t with GoMutex.Spin i | GoMutex.Cas i => i =? 2 | GoMutex.Xchg | GoMutex.FWait | GoMutex.Wake => true | _ => false end) /\
  (forall t, In t (GoMutex.zz s) <-> GoMutex.pcs s t = GoMutex.Asleep).
Proof.
  intros s H. apply GoProofs.reach_inv in H. destruct H as (_ & _ & _ & _ & ZZ & _ & LW & _). split.
  - intros N. destruct (LW N) as [X|X]; [left; now apply Nat.eqb_eq|now right].
  - intros t. rewrite ZZ. destruct (GoMutex.pcs s t); cbn; intuition discriminate.
Qed.
Print Assumptions C29_go_no_lost_wakeup.

(** ---- exp_backoff_then_block_lock ---- *)
Theorem C29_backoff_exclusive : forall s, Backoff.reach s -> exclusive (fun t => match Backoff.pcs s t with Backoff.Hold | Backoff.Unl => true | _ => false end) /\
  (Backoff.val s = 0 <-> forall t, match Backoff.pcs s t with Backoff.Hold | Backoff.Unl => true | _ => false end = false).
Proof.
  intros s H. apply BackoffProofs.reach_inv in H. destruct H as (EX & Z0 & Z1 & _). split; [exact EX|]. split; [exact Z0|].
  intros N. destruct (Nat.eq_dec (Backoff.val s) 0) as [E|E]; [exact E|]. destruct (Z1 E) as [t T]. specialize (N t). unfold BackoffProofs.holds in T. congruence.
Qed.
Print Assumptions C29_backoff_exclusive.
Theorem C29_backoff_no_lost_wakeup : forall s, Backoff.reach s ->
  no_lost_wakeup (Backoff.q s) (Backoff.val s =? 2)
    (fun t => match Backoff.pcs s t with Backoff.Xchg | Backoff.Blk | Backoff.Pop | Backoff.Unpark (Some _) => true | _ => false end) /\
  (forall t, Backoff.pcs s t = Backoff.Asleep <-> (In t (Backoff.q s) \/ exists u, Backoff.pcs s u = Backoff.Unpark (Some t))) /\
  NoDup (Backoff.q s).
Proof.
  intros s H. apply BackoffProofs.reach_inv in H. destruct H as (_ & _ & _ & _ & ND & AS & _ & _ & _ & LW). split; [|split; [|exact ND]].
  - intros N. destruct (LW (or_introl N)) as [X|X]; [left; now apply Nat.eqb_eq|now right].
  - intros t. assert (E : Backoff.pcs s t = Backoff.Asleep <-> BackoffProofs.asleep (Backoff.pcs s t) = true) by (destruct (Backoff.pcs s t); cbn; intuition discriminate).
    rewrite E, AS. assert (X : forall u, BackoffProofs.unparking t (Backoff.pcs s u) = true <-> Backoff.pcs s u = Backoff.Unpark (Some t)).
    { intros u. destruct (Backoff.pcs s u) as [| | | | | | | | | |[y|]]; cbn; try (intuition discriminate). split; [intros F; apply Nat.eqb_eq in F; congruence|intros F; inversion F; apply Nat.eqb_refl]. }
    split; (intros [Y|[u Y]]; [now left|right; exists u; now apply X]).
Qed.
Print Assumptions C29_backoff_no_lost_wakeup.
(** The spin lock is never left held by a thread that is not about to release it, so a waker can always get on. *)
Theorem C29_backoff_waker_steps : forall s t c, Backoff.reach s -> Backoff.pcs s t = Backoff.Pop ->
  (exists s', Backoff.step s t c = Some s' /\ (forall x l, Backoff.q s = x :: l -> Backoff.pcs s' t = Backoff.Unpark (Some x))) \/
  (exists u s', Backoff.pcs s u = Backoff.Ins /\ Backoff.step s u c = Some s' /\ Backoff.sl s' = None).
Proof.
  intros s t c H K. apply BackoffProofs.reach_inv in H. destruct H as (_ & _ & _ & _ & _ & _ & _ & _ & SL & _). destruct (Backoff.sl s) as [u|] eqn:E.
  - right. exists u. assert (U : Backoff.pcs s u = Backoff.Ins).
    { assert (X : BackoffProofs.ins (Backoff.pcs s u) = true) by now apply SL. destruct (Backoff.pcs s u); try discriminate X. reflexivity. }
    eexists. split; [exact U|]. unfold Backoff.step. rewrite U. split; reflexivity.
  - left. unfold Backoff.step. rewrite K, E. destruct (Backoff.q s) as [|x l]; eexists; (split; [reflexivity|]); intros y m F; [discriminate|].
    cbn [Backoff.pcs]. rewrite upd_same. congruence.
Qed.
Print Assumptions C29_backoff_waker_steps.

Section Run.
Fixpoint goF (s : Mutex.st) (l : list (nat * nat)) : option Mutex.st :=
  match l with [] => Some s | (t, c) :: r => match Mutex.step s t c with Some s' => goF s' r | None => None end end.
Fixpoint goG (s : GoMutex.st) (l : list (nat * nat)) : option GoMutex.st :=
  match l with [] => Some s | (t, c) :: r => match GoMutex.step s t c with Some s' => goG s' r | None => None end end.
Fixpoint goB (s : Backoff.st) (l : list (nat * nat)) : option Backoff.st :=
  match l with [] => Some s | (t, c) :: r => match Backoff.step s t c with Some s' => goB s' r | None => None end end.
End Run.
(** 1 holds; 2 and 3 sleep; 1 unlocks and wakes 3; 4 grabs the lock meanwhile; 3 marks the word, so 4's unlock wakes 2. *)
Example C29_futex_example :
  option_map (fun s => (Mutex.val s, Mutex.zz s, Mutex.pcs s 3))
    (goF Mutex.init [(1,0);(1,0); (2,0);(2,0);(2,0);(2,0); (3,0);(3,0);(3,0); (1,0);(1,0);(4,0);(4,0);(1,0)]) = Some (1, [2], Mutex.Xchg) /\
  option_map (fun s => (Mutex.val s, Mutex.zz s, Mutex.pcs s 4))
    (goF Mutex.init [(1,0);(1,0); (2,0);(2,0);(2,0);(2,0); (3,0);(3,0);(3,0); (1,0);(1,0);(4,0);(4,0);(1,0);(3,0);(4,0);(4,0)]) = Some (0, [2], Mutex.Wake).
Proof. split; reflexivity. Qed.
(** 2 sleeps with the word marked; 3 arrives and unmarks it; 1's unlock wakes nobody, but 3 acquires with the mark. *)
Example C29_go_example :
  option_map (fun s => (GoMutex.val s, GoMutex.zz s, GoMutex.pcs s 3))
    (goG GoMutex.init [(1,0);(1,0); (2,0);(2,0);(2,0);(2,0);(2,0); (3,0);(3,0); (1,0);(1,0)]) = Some (0, [2], GoMutex.Spin 2) /\
  option_map (fun s => (GoMutex.val s, GoMutex.zz s, GoMutex.pcs s 3))
    (goG GoMutex.init [(1,0);(1,0); (2,0);(2,0);(2,0);(2,0);(2,0); (3,0);(3,0); (1,0);(1,0);(3,0);(3,0)]) = Some (2, [2], GoMutex.Hold).
Proof. split; reflexivity. Qed.
(** 2 saw the mark and is about to queue itself when 1 unlocks: 1 waits for the spin lock and finds 2. *)
Example C29_backoff_example :
  option_map (fun s => (Backoff.val s, Backoff.q s, Backoff.pcs s 2))
    (goB Backoff.init [(1,1);(1,0); (2,1);(2,0);(2,0);(2,0); (1,0);(1,0);(2,0);(1,0);(1,0)]) = Some (0, [], Backoff.Xchg).
Proof. reflexivity. Qed.
