From Coq Require Import List Bool Arith Lia.
From Verif.Future Require Import Model Spec Proofs.
Import ListNotations.
(** C45, the future inside. As long as only values are put in: everything that happens, in the order it happens, is what a future may do - it is filled while empty, what is got
    is the value put in last, reset empties it - and the calls of each thread hand back, in order, what happened for that thread (all of it when the thread is not in a call). *)
Theorem C45_value : forall s, reach_in values s ->
  (exists c, legal (hist s) c) /\ forall t, (exists rest, mine t (hist s) = rets s t ++ rest) /\ (at_ s t = Out -> rets s t = mine t (hist s)).
Proof.
  intros s R. apply reach_inv in R. destruct (v_hist _ _ R) as [c [L _]]. split; [eauto|]. intros t. pose proof (v_mine _ _ R t) as M. split; [eauto|]. intros E. rewrite M. unfold pend. rewrite E, app_nil_r. auto.
Qed.
Print Assumptions C45_value.
(** In particular no get hands back anything but a value that was put in. *)
Lemma legal_put : forall l c, legal l c -> (forall v, c = Value v -> In (EFul v) l) /\ forall t r, In (EVal t r) l -> exists v, r = Some v /\ In (EFul v) l.
Proof.
  intros l c H. induction H as [|l c e c1 H [A B] D]; [split; [discriminate|intros t r []]|]. split.
  - intros v E. subst c1. rewrite in_app_iff. inversion D; subst; cbn [In]; auto.
  - intros t r X. apply in_app_or in X. destruct X as [X|[X|[]]].
    + destruct (B _ _ X) as (v & V1 & V2). exists v. rewrite in_app_iff. auto.
    + subst e. inversion D; subst. exists v. rewrite in_app_iff. auto.
Qed.
Theorem C45_put : forall s t r, reach_in values s -> In (Val r) (rets s t) -> exists v, r = Some v /\ In (EFul v) (hist s).
Proof.
  intros s t r R H. destruct (C45_value s R) as [[c L] M]. destruct (M t) as [[q Q] _]. assert (In (Val r) (mine t (hist s))) as X by (rewrite Q, in_app_iff; auto).
  unfold mine in X. apply in_flat_map in X. destruct X as (e & E1 & E2). destruct e as [| | |t0 r0| |]; cbn [to_ret] in E2; try (destruct (_ =? _)); cbn [In] in E2; try contradiction; destruct E2 as [E2|E2]; try contradiction; try discriminate. injection E2 as ->. exact (proj2 (legal_put _ _ L) t0 r E1).
Qed.
Print Assumptions C45_put.
(** Nobody who waits is forgotten: once the future is full every blocked getter has been woken. *)
Theorem C45_woken : forall s t, reach_in values s -> full s = true -> at_ s t = Parked -> woken s t = true.
Proof.
  intros s t R F E. apply reach_inv in R. destruct (woken s t) eqn:W; auto. assert (In t (waiters s)) as X by (apply (v_wait _ _ R); rewrite E; auto). rewrite (v_full _ _ R F) in X. destruct X.
Qed.
Print Assumptions C45_woken.
(** C46. The lock while only values are put in, or while no get has to wait and no handler resumes: at most one thread is between lock and unlock, the lock is free exactly when nobody is, and
    nobody releases a lock that he does not hold. The missing uses are those of the refutations below. *)
Theorem C46_lock_partial : forall u s, reach_in u s -> misuse s = false /\ (forall t1 t2, inside (at_ s t1) = true -> inside (at_ s t2) = true -> t1 = t2) /\ (lk s = None <-> forall t, inside (at_ s t) = false).
Proof.
  intros u s R. apply reach_inv in R. split; [apply (v_mis _ _ R)|]. split.
  - intros t1 t2 A B. apply (v_in _ _ R) in A. apply (v_in _ _ R) in B. congruence.
  - split.
    + intros L t. destruct (inside (at_ s t)) eqn:E; auto. apply (v_in _ _ R) in E. congruence.
    + intros H. destruct (lk s) as [t|] eqn:L; auto. apply (v_lk _ _ R) in L. rewrite H in L. discriminate.
Qed.
Print Assumptions C46_lock_partial.
(** Exceptions are raised by exactly the gets that find them, when no get has to wait and no handler resumes. (Full statement: for all uses; refuted below.) *)
Theorem C46_raise_partial : forall s, reach_in early s ->
  (exists c, legal (hist s) c) /\ forall t, (exists rest, mine t (hist s) = rets s t ++ rest) /\ (at_ s t = Out -> rets s t = mine t (hist s)).
Proof.
  intros s R. apply reach_inv in R. destruct (v_hist _ _ R) as [c [L _]]. split; [eauto|]. intros t. pose proof (v_mine _ _ R t) as M. split; [eauto|]. intros E. rewrite M. unfold pend. rewrite E, app_nil_r. auto.
Qed.
Print Assumptions C46_raise_partial.
Lemma run_reach : forall l s s1, reach s -> run s l = Some s1 -> reach s1.
Proof. induction l as [|[t a] l IH]; intros s s1 R H; cbn [run] in H; [congruence|]. destruct (step s t a) as [s2|] eqn:E; [|discriminate]. apply (IH s2); auto. econstructor; eauto. Qed.
Definition show (l : list (nat * act)) : option (list bool * bool * list (list ret)) :=
  match run start l with Some s => Some (map (fun t => inside (at_ s t)) [1; 2; 3; 4], misuse s, map (rets s) [1; 2; 3; 4]) | None => None end.
Lemma show_some : forall l a b c, show l = Some (a, b, c) -> exists s, reach s /\ map (fun t => inside (at_ s t)) [1; 2; 3; 4] = a /\ misuse s = b /\ map (rets s) [1; 2; 3; 4] = c.
Proof. intros l a b c. unfold show. destruct (run start l) as [s|] eqn:E; [|discriminate]. intros H. injection H as <- <- <-. exists s. split; [apply (run_reach l start); auto; constructor|]. auto. Qed.
(** A getter that waited and is handed an exception releases the lock without having it: here while thread 3 has it, so that thread 4 gets in too. *)
Definition getl (t : nat) := [(t, Start OGet); (t, Go); (t, Go); (t, Go)].
Definition w_lock := getl 1 ++ [(2, Start (OExc 7)); (2, Go); (2, Go); (2, Go); (3, Start OTry); (3, Go); (1, Go); (1, Go); (1, Go); (4, Start OReset); (4, Go)].
Theorem C46_lock_refuted : ~ forall s t1 t2, reach s -> inside (at_ s t1) = true -> inside (at_ s t2) = true -> t1 = t2.
Proof.
  assert (show w_lock = Some ([false; false; true; true], true, [[]; []; []; []])) as E by (vm_compute; reflexivity). destruct (show_some _ _ _ _ E) as (s & R & A & _). intros X. cbn [map] in A. injection A as A1 A2 A3 A4.
  specialize (X s 3 4 R A3 A4). discriminate.
Qed.
Print Assumptions C46_lock_refuted.
(** When a handler resumes, a get that found the exception at once releases the lock twice. *)
Definition w_resume := [(2, Start (OExc 7)); (2, Go); (2, Go); (2, Go); (1, Start OGet); (1, Go); (1, Go); (1, Go); (3, Start OTry); (3, Go); (1, Resume); (1, Go)].
Theorem C46_resume_refuted : ~ forall s, reach s -> (exists t1, rets s t1 = [Val None]) -> misuse s = false.
Proof.
  assert (show w_resume = Some ([false; false; true; false], true, [[Val None]; []; []; []])) as E by (vm_compute; reflexivity). destruct (show_some _ _ _ _ E) as (s & R & _ & B & C). intros X. cbn [map] in C. injection C as C1 _ _ _.
  rewrite X in B; [discriminate|auto|exists 1; auto].
Qed.
Print Assumptions C46_resume_refuted.
(** try_get on a future that holds an exception reports a value that nobody ever wrote as "defined". *)
Definition w_try := [(2, Start (OExc 7)); (2, Go); (2, Go); (2, Go); (1, Start OTry); (1, Go); (1, Go); (1, Go)].
Theorem C46_try_refuted : ~ forall s t r, reach s -> In (Tried r true) (rets s t) -> exists v, r = Some v.
Proof.
  assert (show w_try = Some ([false; false; false; false], false, [[Tried None true]; []; []; []])) as E by (vm_compute; reflexivity). destruct (show_some _ _ _ _ E) as (s & R & _ & _ & C). intros X. cbn [map] in C. injection C as C1 _ _ _.
  destruct (X s 1 None R) as [v Y]; [rewrite C1; left; auto|discriminate].
Qed.
Print Assumptions C46_try_refuted.
(** A getter that was handed a value can raise the exception of a later round instead of returning it: after waking it looks at the future again. *)
Definition w_late := getl 1 ++ [(2, Start (OFul 5)); (2, Go); (2, Go); (2, Go); (2, Start OReset); (2, Go); (2, Go); (2, Go); (2, Start (OExc 7)); (2, Go); (2, Go); (2, Go); (1, Go); (1, Go); (1, Go); (1, Unwind)].
Theorem C46_late_refuted : ~ forall s t e, reach s -> rets s t = [Raised e] -> In (ERaise t e) (hist s).
Proof.
  assert (option_map (fun s => (rets s 1, hist s)) (run start w_late) = Some ([Raised 7], [EFul 5; EVal 1 (Some 5); EReset; EExc 7])) as E by (vm_compute; reflexivity). intros X.
  destruct (run start w_late) as [s|] eqn:Q; [|discriminate]. cbn [option_map] in E. injection E as E1 E2. assert (reach s) as R by (apply (run_reach w_late start); auto; constructor).
  specialize (X s 1 7 R E1). rewrite E2 in X. cbn [In] in X. repeat (destruct X as [X|X]; [discriminate|]). auto.
Qed.
Print Assumptions C46_late_refuted.
(** one getter waits, one comes later, one tries too early *)
Example ex_value : show (getl 1 ++ [(3, Start OTry); (3, Go); (3, Go); (3, Go); (2, Start (OFul 5)); (2, Go); (2, Go); (2, Go); (4, Start OGet); (4, Go); (4, Go); (4, Go); (1, Go); (1, Go)])
  = Some ([false; false; false; false], false, [[Val (Some 5)]; []; [Tried None false]; [Val (Some 5)]]).
Proof. vm_compute. reflexivity. Qed.
Example ex_raise : show ([(2, Start (OExc 7)); (2, Go); (2, Go); (2, Go); (4, Start OGet); (4, Go); (4, Go); (4, Go); (4, Unwind)])
  = Some ([false; false; false; false], false, [[]; []; []; [Raised 7]]).
Proof. vm_compute. reflexivity. Qed.
