From Coq Require Import ZArith List Bool Arith Lia.
From Verif.OldLocks Require Import Model Spec Proofs.
Import ListNotations.
Lemma holder_hs s t : Inv s -> (holder s t <-> 0 < hs s t).
Proof.
  intros I. pose proof (i_good s I t) as G. unfold holder, handed, hs. split.
  - intros [[-> ->]|[d [Hd [-> |[-> |[-> |[-> | ->]]]]]]]; cbn [hp]; lia.
  - intros H. destruct (ph s t) eqn:E; cbn [hp] in H; try lia; try (right; exists d; split; [lia|auto 6]; fail). left. split; [reflexivity|]. unfold good in G. destruct (tok s t) as [|[|]]; [lia|reflexivity|discriminate].
Qed.
Lemma inside_holder s t d : Inv s -> inside s t d -> holder s t /\ 1 <= d.
Proof. intros I H. pose proof (i_good s I t) as G. unfold inside in H. rewrite H in G. unfold good in G. apply andb_prop in G. destruct G as [_ G]. apply Nat.leb_le in G. split; [right; exists d; auto|exact G]. Qed.
(** mutual exclusion, for both kinds of lock and with waits *)
Theorem C118_exclusive : forall l s t t', new l -> reach l s -> holder s t -> holder s t' -> t = t'.
Proof.
  intros l s t t' N H A B. pose proof (reach_inv l s N H) as I. apply (holder_hs s _ I) in A. apply (holder_hs s _ I) in B. destruct (i_h s I) as [h [[H0 _] _]].
  apply H0 in A. apply H0 in B. congruence.
Qed.
Print Assumptions C118_exclusive.
(** the fields say who is inside, and how often *)
Theorem C118_fields : forall l s, new l -> reach l s ->
  match lk s with
  | M b => (b = true <-> exists t, holder s t) /\ (forall t d, inside s t d -> d = 1)
  | R o c => (forall t, o = Some t <-> holder s t) /\ (o = None -> c = 0%Z) /\ (forall t d, inside s t d -> c = Z.of_nat d)
  end.
Proof.
  intros l s N H. pose proof (reach_inv l s N H) as I. destruct (i_h s I) as [h [[H0 H1] _]].
  assert (P : forall t, holder s t <-> h = Some t) by (intros t; rewrite (holder_hs s t I); apply H0).
  assert (Q : forall t d, inside s t d -> h = Some t /\ hs s t = d). { intros t d E. split; [apply P; apply (inside_holder s t d I E)|unfold hs; rewrite E; reflexivity]. }
  destruct (lk s) as [b|o c].
  - destruct H1 as [-> H1]. split.
    + destruct h as [t|]; split; try discriminate; intros E; [exists t; apply P; reflexivity|reflexivity|]. destruct E as [t E]. apply P in E. discriminate.
    + intros t d E. destruct (inside_holder s t d I E) as [_ G]. destruct (Q t d E) as [_ F]. specialize (H1 t). lia.
  - destruct H1 as [-> [-> _]]. split; [intros t; symmetry; apply P|]. split; [intros ->; reflexivity|]. intros t d E. destruct (Q t d E) as [-> F]. rewrite F. reflexivity.
Qed.
Print Assumptions C118_fields.
(** park and unpark match: no step aborts *)
Theorem C118_safe : forall l s e, new l -> reach l s -> step e s <> Abort.
Proof. intros l s e N H. apply (step_inv s e (reach_inv l s N H)). Qed.
Print Assumptions C118_safe.
(** first come, first served: the threads granted the lock are those that came, in that order, up to the ones blocked; likewise for the threads notified *)
Theorem C118_fifo : forall l s, new l -> reach l s ->
  (exists q, arr s = gra s ++ q /\ NoDup q /\ forall t, List.In t q <-> blocked s t) /\
  (exists q, carr s = cgra s ++ q /\ NoDup q /\ (forall t, waiting s t -> List.In t q) /\ (forall t, List.In t q -> waiting s t \/ exists d, ph s t = Wa d)).
Proof.
  intros l s N H. pose proof (reach_inv l s N H) as I. split.
  - exists (lq s). split; [apply (i_arr s I)|]. split; [apply (i_lqn s I)|]. intros t. rewrite (i_lq s I). unfold blocked. destruct (ph s t); cbn [ol]; (split; [intros E|intros [E F]]); try discriminate.
    + split; [reflexivity|apply Nat.eqb_eq; exact E].
    + rewrite F. reflexivity.
  - exists (cq s). split; [apply (i_carr s I)|]. split; [apply (i_cqn s I)|]. split; intros t; rewrite (i_cq s I); unfold waiting.
    + intros [[d [-> |[-> ->]]]|[-> ->]]; reflexivity.
    + destruct (ph s t) eqn:E; cbn [oc]; intros F; try discriminate; [right; eauto|left; left; eauto|left; left; exists d; right; split; [reflexivity|apply Nat.eqb_eq; exact F]|left; right; split; [reflexivity|apply Nat.eqb_eq; exact F]].
Qed.
Print Assumptions C118_fifo.
(** no wake-up is lost: while a thread is blocked some other thread holds the lock; its last unlock hands the lock to the thread blocked longest, which can go on *)
Theorem C118_handoff : forall l s, new l -> reach l s ->
  (forall t, blocked s t -> exists h, h <> t /\ holder s h) /\
  (forall t, inside s t 1 -> exists s', step (Unlock t) s = Next s' /\ ph s' t = Out /\
    match lq s with [] => forall x, ~ holder s' x | w :: _ => handed s' w end) /\
  (forall t, handed s t -> exists s', step (Park t) s = Next s' /\ inside s' t 1).
Proof.
  intros l s N H. pose proof (reach_inv l s N H) as I. split; [|split].
  - intros t B. destruct (i_h s I) as [[h|] [[H0 _] He]].
    + exists h. assert (Hh : 0 < hs s h) by (apply H0; reflexivity). split; [|apply (holder_hs s h I); exact Hh]. intros ->. unfold hs in Hh. destruct B as [B1 B2]. rewrite B1, B2 in Hh. cbn [hp] in Hh. lia.
    + exfalso. assert (E : List.In t (lq s)) by (apply (i_lq s I); destruct B as [-> ->]; reflexivity). rewrite (He eq_refl) in E. exact E.
  - intros t E. cbn [step]. rewrite E. cbn [pred held]. destruct (do_unlock_inv s t 1 Out I) as [s' [F I']]; [left; split; [exact E|reflexivity]|]. exists s'. split; [exact F|].
    assert (Hc : release (lk s) (lq s) = (fst (fst (release (lk s) (lq s))), tl (lq s), hd_error (lq s))).
    { destruct (i_h s I) as [h [[H0 H1] _]]. assert (Hs : hs s t = 1) by (unfold hs; rewrite E; reflexivity). assert (h = Some t) by (apply H0; lia). subst h.
      destruct (lk s) as [b|o c]; [reflexivity|]. destruct H1 as [-> [-> _]]. rewrite Hs. reflexivity. }
    unfold do_unlock in F. rewrite Hc in F. destruct (lq s) as [|w q] eqn:Eq; cbn [hd_error tl unpark list_of] in F.
    + injection F as <-. cbn [ph]. split; [apply upd_eq|]. intros x Hx. apply (holder_hs _ x I') in Hx. destruct (i_h _ I') as [h [[H0 H1] He]]. cbn [hs lk lq ph tok] in *.
      destruct (i_h s I) as [h0 [[A0 _] _]]. assert (Hs : hs s t = 1) by (unfold hs; rewrite E; reflexivity). assert (h0 = Some t) by (apply A0; lia). subst h0.
      unfold hs in Hx. cbn [ph tok] in Hx. destruct (Nat.eq_dec x t) as [->|Nx]; [rewrite upd_eq in Hx; cbn [hp] in Hx; lia|]. rewrite upd_ne in Hx by exact Nx. assert (Some t = Some x) by (apply A0; exact Hx). congruence.
    + assert (Hw : ol (ph s w) (tok s w) = true) by (apply (i_lq s I); rewrite Eq; left; reflexivity).
      assert (Hwp : ph s w = Wl) by (destruct (ph s w); try discriminate; reflexivity). assert (Nw : w <> t) by (intros ->; unfold inside in E; congruence).
      destruct (tok s w =? 0); [|discriminate]. injection F as <-. cbn [ph]. split; [apply upd_eq|]. split; cbn [ph tok]; [rewrite upd_ne by exact Nw; exact Hwp|apply upd_eq].
  - intros t [E F]. cbn [step]. unfold do_park. rewrite E, F. cbn [Nat.eqb]. eexists. split; [reflexivity|]. apply upd_eq.
Qed.
Print Assumptions C118_handoff.
(** try_lock does not wait, and gets the lock exactly when nobody else holds it *)
Theorem C118_try : forall l s t, new l -> reach l s -> ph s t = Out ->
  exists s', step (Try t) s = Next s' /\ ((forall h, ~ holder s h) -> inside s' t 1) /\ ((exists h, holder s h) -> s' = s).
Proof.
  intros l s t N H E. pose proof (reach_inv l s N H) as I. pose proof (C118_fields l s N H) as F. cbn [step]. rewrite E. unfold do_try, do_lock.
  destruct (lk s) as [[|]|[o|] c]; cbn [acquire].
  - exists s. split; [reflexivity|]. split; [|reflexivity]. intros A. exfalso. destruct F as [F _]. destruct (proj1 F eq_refl) as [h Hh]. exact (A h Hh).
  - eexists. split; [reflexivity|]. split; [intros _; apply upd_eq|]. intros A. destruct F as [F _]. apply F in A. discriminate.
  - destruct F as [F _]. assert (Ho : holder s o) by (apply F; reflexivity). destruct (Nat.eqb_spec o t) as [->|_].
    + exfalso. apply (holder_hs s t I) in Ho. unfold hs in Ho. rewrite E in Ho. cbn [hp] in Ho. lia.
    + exists s. split; [reflexivity|]. split; [intros A; destruct (A o Ho)|reflexivity].
  - eexists. split; [reflexivity|]. split; [intros _; apply upd_eq|]. intros [h A]. destruct F as [F _]. apply F in A. discriminate.
Qed.
Print Assumptions C118_try.
(** notifications: a thread that has released the lock in wait is notified by every notify_all after that, and by notify_one in its turn; it can then go on *)
Theorem C118_notify : forall l s, new l -> reach l s -> cl s = None ->
  (exists s', step Notify_all s = Next s' /\ (forall t, waiting s t -> ph s' t = ph s t /\ tok s' t = 1) /\ forall t, ~ waiting s' t) /\
  (exists s', step Notify_one s = Next s' /\ forall t, waiting s t -> ph s' t = ph s t /\ (tok s' t = 1 <-> hd_error (cq s) = Some t)) /\
  (forall t d, ph s t = Wc d -> tok s t = 1 -> exists s', step (Park t) s = Next s' /\ ph s' t = Wd d).
Proof.
  intros l s N H Hc. pose proof (reach_inv l s N H) as I.
  assert (Wq : forall t, waiting s t -> List.In t (cq s)) by (intros t; rewrite (i_cq s I); intros [[d [-> |[-> ->]]]|[-> ->]]; reflexivity).
  split; [|split].
  - destruct (all_inv s I Hc) as [k [E [K1 K2]]]. eexists. split; [exact E|]. split; [intros t Ht; split; [reflexivity|apply K1; apply Wq; exact Ht]|].
    intros t Ht. assert (Ia : Inv (Sys (lk s) (lq s) [] (cl s) (ph s) k (arr s) (gra s) (carr s) (cgra s ++ cq s))) by (apply wake_inv; try assumption; rewrite app_nil_r; reflexivity).
    apply (i_cq _ Ia t). cbn [ph tok]. destruct Ht as [[d [Ht|[Ht Hk]]]|[Ht Hk]]; cbn [ph tok] in *; rewrite Ht, ?Hk; reflexivity.
  - destruct (one_inv s I Hc) as [s' [E _]]. exists s'. split; [exact E|]. intros t Ht. unfold do_one in E. rewrite Hc in E. pose proof (cq_zero s t I (Wq t Ht)) as Z0.
    destruct (cq s) as [|w r] eqn:Eq; [destruct (Wq t Ht)|]. cbn [hd_error tl unpark list_of] in *. destruct (tok s w =? 0); [|discriminate]. injection E as <-. cbn [ph tok]. split; [reflexivity|].
    destruct (Nat.eq_dec t w) as [->|Nw]; [rewrite upd_eq; split; reflexivity|]. rewrite upd_ne by exact Nw. rewrite Z0. split; [discriminate|congruence].
  - intros t d E F. cbn [step]. unfold do_park. rewrite E, F. cbn [Nat.eqb]. eexists. split; [reflexivity|]. apply upd_eq.
Qed.
Print Assumptions C118_notify.
(** wait releases the lock when the thread holds it once; *)
Theorem C118_wait : forall l s t, new l -> reach l s -> ph s t = Wa 1 -> exists s', step (Wait_unlock t) s = Next s' /\ ~ holder s' t /\ waiting s' t.
Proof.
  intros l s t N H E. pose proof (reach_inv l s N H) as I. cbn [step]. rewrite E. destruct (do_unlock_inv s t 1 (Wb 0) I) as [s' [F I']]; [right; split; [exact E|reflexivity]|].
  exists s'. split; [exact F|]. assert (P : ph s' t = Wb 0). { unfold do_unlock in F. destruct (release (lk s) (lq s)) as [[a b] w]. destruct (unpark w (tok s)); [|discriminate]. injection F as <-. apply upd_eq. }
  split; [|left; exists 0; left; exact P]. rewrite (holder_hs s' t I'). unfold hs. rewrite P. cbn [hp]. lia.
Qed.
Print Assumptions C118_wait.
Fixpoint exec (es : list ev) (s : sys) : out := match es with [] => Next s | e :: es => match step e s with Next s' => exec es s' | o => o end end.
Lemma exec_reach l : forall es s s', reach l s -> exec es s = Next s' -> reach l s'.
Proof. induction es as [|e es IH]; intros s s' H E; cbn [exec] in E; [injection E as <-; exact H|]. destruct (step e s) eqn:F; try discriminate. eapply IH; [|exact E]. eapply reach_step; eassumption. Qed.
(** but a thread that holds a recursive lock twice keeps it while it waits, so that no thread that takes the lock first can notify it *)
Theorem C118_wait_refuted : exists s, reach new_recursive s /\ waiting s 0 /\ holder s 0 /\ blocked s 1 /\ lk s = R (Some 0) 1.
Proof.
  exists (match exec [Lock 0; Lock 0; Wait 0; Wait_unlock 0; Wait_release 0; Lock 1] (init new_recursive) with Next s => s | _ => init new_recursive end).
  split; [apply (exec_reach _ [Lock 0; Lock 0; Wait 0; Wait_unlock 0; Wait_release 0; Lock 1] (init new_recursive)); [apply reach_init|vm_compute; reflexivity]|].
  split; [left; exists 1; right; split; vm_compute; reflexivity|]. split; [right; exists 1; split; [apply le_n|right; right; right; left; vm_compute; reflexivity]|].
  split; [split; vm_compute; reflexivity|vm_compute; reflexivity].
Qed.
Print Assumptions C118_wait_refuted.
(** three threads: 1 and 2 block while 0 is inside; 1, then 2 are let in; and a wait with a notification before park *)
Example ex_lock : match exec [Lock 0; Lock 1; Lock 2; Try 3; Unlock 0; Park 1; Unlock 1; Park 2] (init new_mutex) with
  | Next s => (ph s 0, ph s 1, ph s 2, ph s 3) = (Out, Out, In 1, Out) /\ arr s = [0; 1; 2] /\ gra s = [0; 1; 2] /\ lk s = M true | _ => False end.
Proof. vm_compute. repeat split. Qed.
Example ex_wait : match exec [Lock 0; Wait 0; Wait_unlock 0; Lock 1; Wait_release 0; Notify_one; Park 0; Wait_lock 0; Unlock 1; Park 0] (init new_recursive) with
  | Next s => (ph s 0, ph s 1) = (In 1, Out) /\ lk s = R (Some 0) 1 /\ carr s = [0] /\ cgra s = [0] | _ => False end.
Proof. vm_compute. repeat split. Qed.
