(* Invariants of one condition variable and its mutex. *)

From Coq Require Import List Bool Arith ZArith Lia.
From Verif.PthreadCond Require Import Model Spec.
Import ListNotations.

Lemma upd_same : forall A (f : nat -> A) x v, upd f x v x = v.
Proof. intros. unfold upd. now rewrite Nat.eqb_refl. Qed.
Lemma upd_other : forall A (f : nat -> A) x v y, y <> x -> upd f x v y = f y.
Proof. intros. unfold upd. apply Nat.eqb_neq in H. now rewrite H. Qed.

Ltac updc :=
  repeat match goal with
  | |- context [upd _ ?x _ ?x] => rewrite upd_same
  | H : context [upd _ ?x _ ?x] |- _ => rewrite upd_same in H
  | N : ?y <> ?x |- context [upd _ ?x _ ?y] => rewrite (upd_other _ _ x _ y N)
  | N : ?y <> ?x, H : context [upd _ ?x _ ?y] |- _ => rewrite (upd_other _ _ x _ y N) in H
  end.

Ltac who t u := destruct (Nat.eq_dec t u) as [->|?]; updc.

Ltac simp := cbn [ready owner rec queue cond pcs signalled now held timed
                  set_lock set_cond set_pc set_held set_sig].

Definition in_queue (p : pc) : bool := match p with LockWait | ReLock _ => true | _ => false end.
Definition in_cond (p : pc) : bool := match p with Enq _ | CondWait _ _ => true | _ => false end.
Definition saved_ok (p : pc) : Prop := match p with CondWait _ n | ReLock n => 0 < n | _ => True end.
Definition is_enq (p : pc) : bool := match p with Enq _ => true | _ => false end.

(* The part of the invariant about places and lists; [x] is a thread taken off
   its list and not placed yet. *)
Record Lists (s : state) (x : option nat) : Prop := {
  l_queue : forall t, x <> Some t -> (In t (queue s) <-> in_queue (pcs s t) = true);
  l_cond : forall t, x <> Some t -> (In t (cond s) <-> in_cond (pcs s t) = true);
  l_x : forall t, x = Some t -> ~ In t (queue s) /\ ~ In t (cond s);
  l_nodup : NoDup (queue s) /\ NoDup (cond s);
  l_saved : forall t, saved_ok (pcs s t)
}.

Record Own (s : state) : Prop := {
  o_own : match owner s with
          | None => rec s = 0 /\ queue s = [] /\ forall t, held s t = 0
          | Some t => rec s = held s t /\ 0 < held s t /\ (pcs s t = Idle \/ is_enq (pcs s t) = true) /\
                      forall u, u <> t -> held s u = 0
          end;
  o_enq : forall t, is_enq (pcs s t) = true -> owner s = Some t
}.

Definition Inv (s : state) : Prop := Lists s None /\ Own s.

Lemma nodup_snoc : forall (l : list nat) x, NoDup l -> ~ In x l -> NoDup (l ++ [x]).
Proof.
  induction l as [|a l IH]; intros x N I; cbn [app].
  - constructor; [intros []|constructor].
  - inversion N; subst. constructor.
    + rewrite in_app_iff. cbn [In]. intros [Q|[Q|[]]]; [contradiction|]. subst. apply I. left; reflexivity.
    + apply IH; [assumption|]. intros Q. apply I. right; exact Q.
Qed.

Lemma nodup_remove : forall (l : list nat) x, NoDup l -> NoDup (remove Nat.eq_dec x l).
Proof.
  induction l as [|a l IH]; intros x N; cbn [remove]; [constructor|]. inversion N; subst.
  destruct (Nat.eq_dec x a); [auto|]. constructor; [|auto]. intros Q. apply in_remove in Q. tauto.
Qed.

Lemma inv_start : forall r t0, Inv (start r t0).
Proof.
  intros. split; constructor; unfold start; simp; auto.
  - intros t _. cbn. split; [intros []|discriminate].
  - intros t _. cbn. split; [intros []|discriminate].
  - split; constructor.
  - intros t. exact I.
  - discriminate.
Qed.

Lemma inv_excl : forall s, Own s -> exclusive s.
Proof.
  intros s [O _] t u Ht Hu. destruct (owner s) as [w|].
  - destruct O as (_ & _ & _ & F).
    destruct (Nat.eq_dec t w) as [->|D1]; [|rewrite F in Ht by auto; lia].
    destruct (Nat.eq_dec u w) as [->|D2]; [reflexivity|rewrite F in Hu by auto; lia].
  - destruct O as (_ & _ & F). rewrite F in Ht. lia.
Qed.

Lemma is_me_iff : forall o t, is_me o t = true <-> o = Some t.
Proof.
  intros [x|] t; cbn [is_me]; [|split; discriminate].
  rewrite Nat.eqb_eq. split; [intros ->; reflexivity|congruence].
Qed.

(* u, on no list, is made owner of a free mutex. *)
Lemma inv_grant : forall s u, Lists s (Some u) -> (forall t, held s t = 0) ->
  (forall t, t <> u -> is_enq (pcs s t) = false) -> Inv (grant s u).
Proof.
  intros s u [L1 L2 L3 L4 L5] HF HE. destruct (L3 u eq_refl) as [NQ NC].
  set (n := match pcs s u with ReLock sv | CondWait _ sv => sv | _ => 1 end).
  assert (Hn : 0 < n). { unfold n. specialize (L5 u). destruct (pcs s u); cbn [saved_ok] in L5; lia. }
  unfold grant. fold n. split; constructor; simp.
  - intros t _. who t u; [cbn; split; [tauto|discriminate]|]. apply L1. congruence.
  - intros t _. who t u; [cbn; split; [tauto|discriminate]|]. apply L2. congruence.
  - discriminate.
  - exact L4.
  - intros t. who t u; [exact I|auto].
  - updc. split; [reflexivity|]. split; [exact Hn|]. split; [left; reflexivity|]. intros t D. updc. auto.
  - intros t. who t u; [discriminate|]. intros E. rewrite HE in E by assumption. discriminate.
Qed.

(* The mutex is given up by the thread that held it. *)
Lemma inv_pop : forall s, Lists s None -> (forall t, held s t = 0) ->
  (forall t, is_enq (pcs s t) = false) -> Inv (pop_node s).
Proof.
  intros s [L1 L2 L3 L4 L5] HF HE. unfold pop_node. destruct (queue s) as [|u q] eqn:Q.
  - split; constructor; simp; auto.
    intros t H. rewrite HE in H. discriminate.
  - destruct L4 as [N1 N2]. inversion N1; subst.
    assert (IU : in_queue (pcs s u) = true) by (apply L1; [discriminate|left; reflexivity]).
    apply inv_grant; [|intros; apply HF|intros; apply HE]. constructor; simp; auto.
    + intros t D. rewrite <- L1 by discriminate. cbn [In]. split; [auto|]. intros [->|H]; [congruence|exact H].
    + intros t D. rewrite <- L2 by discriminate. reflexivity.
    + intros t E. injection E as <-. split; [assumption|]. rewrite L2 by discriminate.
      destruct (pcs s u); cbn in *; congruence.
Qed.

Lemma own_free : forall s, Own s -> owner s = None -> forall t, held s t = 0 /\ is_enq (pcs s t) = false.
Proof.
  intros s [O E] N t. rewrite N in O. destruct O as (_ & _ & F). split; [apply F|].
  destruct (is_enq (pcs s t)) eqn:X; [|reflexivity]. apply E in X. congruence.
Qed.

Lemma inv_lock : forall s t s1 r, Inv s -> pcs s t = Idle -> do_lock s t = Ok s1 r -> Inv s1.
Proof.
  intros s t s1 r [L O] HP E. unfold do_lock in E. destruct (is_me (owner s) t) eqn:M.
  - apply is_me_iff in M. injection E as <- <-. destruct L as [L1 L2 L3 L4 L5]. destruct O as [O1 O2].
    rewrite M in O1. destruct O1 as (R & P & Q & F).
    split; constructor; simp; auto.
    rewrite M. updc. split; [lia|]. split; [lia|]. split; [exact Q|]. intros u D. updc. auto.
  - destruct (owner s) as [w|] eqn:EO; injection E as <- <-.
    + assert (D : w <> t) by (intros ->; cbn [is_me] in M; rewrite Nat.eqb_refl in M; discriminate).
      destruct L as [L1 L2 L3 L4 L5]. destruct O as [O1 O2].
      assert (NQ : ~ In t (queue s)) by (rewrite L1 by discriminate; rewrite HP; discriminate).
      split; constructor; simp; auto.
      * intros x _. who x t.
        -- rewrite in_app_iff. cbn. tauto.
        -- rewrite in_app_iff. cbn [In]. rewrite L1 by discriminate. split; [|auto]. intros [H|[H|[]]]; [exact H|congruence].
      * intros x _. who x t; [rewrite L2 by discriminate; rewrite HP; reflexivity|apply L2; discriminate].
      * discriminate.
      * split; [apply nodup_snoc; tauto|tauto].
      * intros x. who x t; [exact I|auto].
      * rewrite EO in *. updc. exact O1.
      * intros x. who x t; [discriminate|]. intros H. apply O2 in H. congruence.
    + destruct L as [L1 L2 L3 L4 L5]. pose proof (own_free s O EO) as OF.
      apply inv_grant; [|intros; apply OF|intros; apply OF].
      constructor; auto.
      * intros x _. apply L1. discriminate.
      * intros x _. apply L2. discriminate.
      * intros x H. injection H as <-. rewrite L1, L2 by discriminate. rewrite HP. cbn. split; discriminate.
Qed.

Lemma inv_unlock : forall s t s1 r, Inv s -> pcs s t = Idle -> do_unlock s t = Ok s1 r -> Inv s1.
Proof.
  intros s t s1 r [L O] HP E. unfold do_unlock in E. destruct (is_me (owner s) t) eqn:M; cbn [negb] in E.
  - apply is_me_iff in M. destruct O as [O1 O2]. rewrite M in O1. destruct O1 as (R & P & Q & F).
    destruct L as [L1 L2 L3 L4 L5].
    assert (NE : forall x, is_enq (pcs s x) = false).
    { intros x. destruct (is_enq (pcs s x)) eqn:X; [|reflexivity]. pose proof (O2 x X) as Y.
      assert (x = t) by congruence. subst x. rewrite HP in X. discriminate. }
    simp. cbn [rec set_held set_lock] in E. destruct (Nat.eqb_spec (pred (rec s)) 0) as [Z0|Z0]; injection E as <- <-.
    + apply inv_pop.
      * constructor; simp; auto.
      * intros x. simp. who x t; [lia|auto].
      * intros x. simp. apply NE.
    + split; constructor; simp; auto.
      rewrite M. updc. split; [lia|]. split; [lia|]. split; [exact Q|]. intros u D. updc. auto.
  - injection E as <- <-. split; assumption.
Qed.

Lemma inv_wait : forall s t a s1 r, Inv s -> pcs s t = Idle -> do_wait s t a = Ok s1 r -> Inv s1.
Proof.
  intros s t a s1 r [L O] HP E. unfold do_wait in E. destruct (is_me (owner s) t) eqn:M; cbn [negb] in E; [|discriminate].
  destruct (ready s); cbn [negb] in E; [|discriminate]. injection E as <- <-.
  apply is_me_iff in M. destruct L as [L1 L2 L3 L4 L5]. destruct O as [O1 O2]. rewrite M in O1. destruct O1 as (R & P & Q & F).
  assert (NC : ~ In t (cond s)) by (rewrite L2 by discriminate; rewrite HP; discriminate).
  split; constructor; simp; auto.
  - intros x _. who x t; [rewrite L1 by discriminate; rewrite HP; reflexivity|apply L1; discriminate].
  - intros x _. who x t.
    + rewrite in_app_iff. cbn. tauto.
    + rewrite in_app_iff. cbn [In]. rewrite L2 by discriminate. split; [|auto]. intros [H|[H|[]]]; [exact H|congruence].
  - discriminate.
  - split; [tauto|apply nodup_snoc; tauto].
  - intros x. who x t; [exact I|auto].
  - rewrite M. updc. split; [exact R|]. split; [exact P|]. split; [right; reflexivity|]. exact F.
  - intros x. who x t; [auto|]. auto.
Qed.

Lemma inv_block : forall s t dl s1 r, Inv s -> pcs s t = Enq dl -> do_block s t dl = Ok s1 r -> Inv s1.
Proof.
  intros s t dl s1 r [L O] HP E. unfold do_block in E. injection E as <- <-.
  destruct L as [L1 L2 L3 L4 L5]. destruct O as [O1 O2].
  assert (M : owner s = Some t) by (apply O2; rewrite HP; reflexivity). rewrite M in O1. destruct O1 as (R & P & Q & F).
  apply inv_pop.
  - constructor; simp; auto.
    + intros x _. who x t; [rewrite L1 by discriminate; rewrite HP; reflexivity|apply L1; discriminate].
    + intros x _. who x t; [rewrite L2 by discriminate; rewrite HP; reflexivity|apply L2; discriminate].
    + intros x. who x t; [cbn; lia|auto].
  - intros x. simp. who x t; auto.
  - intros x. simp. who x t; [reflexivity|]. destruct (is_enq (pcs s x)) eqn:X; [|reflexivity].
    apply O2 in X. congruence.
Qed.

(* t has been taken off the condition's list. *)
Lemma inv_notify : forall s t s1, Lists s (Some t) -> Own s -> in_cond (pcs s t) = true ->
  on_notify s t = Some s1 -> Inv s1 /\ cond s1 = cond s.
Proof.
  intros s t s1 L O HP E. unfold on_notify in E. destruct (owner s) as [w|] eqn:EO.
  - destruct (pcs s t) as [| | |dl sv|] eqn:EP; try discriminate. injection E as <-.
    split; [|reflexivity]. destruct L as [L1 L2 L3 L4 L5]. destruct O as [O1 O2]. destruct (L3 t eq_refl) as [NQ NC].
    rewrite EO in O1. destruct O1 as (R & P & Q & F).
    assert (D : w <> t) by (intros ->; rewrite EP in Q; cbn in Q; destruct Q; discriminate).
    split; constructor; simp; auto.
    + intros x _. who x t.
      * rewrite in_app_iff. cbn. tauto.
      * rewrite in_app_iff. cbn [In]. rewrite L1 by congruence. split; [|auto]. intros [H|[H|[]]]; [exact H|congruence].
    + intros x _. who x t; [cbn; split; [tauto|discriminate]|apply L2; congruence].
    + discriminate.
    + split; [apply nodup_snoc; tauto|tauto].
    + intros x. who x t; [|auto]. specialize (L5 t). rewrite EP in L5. exact L5.
    + updc. auto.
    + intros x. who x t; [discriminate|]. intros H. apply O2 in H. congruence.
  - injection E as <-. pose proof (own_free s O EO) as OF. split; [|reflexivity].
    apply inv_grant; [exact L|intros; apply OF|intros; apply OF].
Qed.

(* Taking the first thread off the condition's list. *)
Lemma take_first : forall s t c b, Inv s -> cond s = t :: c ->
  Lists (set_sig (set_cond s c) t b) (Some t) /\ Own (set_sig (set_cond s c) t b) /\ in_cond (pcs s t) = true.
Proof.
  intros s t c b [L O] E. destruct L as [L1 L2 L3 [N1 N2] L5].
  assert (IC : in_cond (pcs s t) = true) by (apply L2; [discriminate|rewrite E; left; reflexivity]).
  rewrite E in N2. inversion N2; subst.
  split; [|split; [|exact IC]].
  - constructor; simp; auto.
    + intros x _. apply L1. discriminate.
    + intros x D. rewrite <- L2 by discriminate. rewrite E. cbn [In]. split; [auto|]. intros [->|Q]; [congruence|exact Q].
    + intros x Q. injection Q as <-. split; [|assumption]. rewrite L1 by discriminate.
      destruct (pcs s t); cbn in *; congruence.
  - destruct O as [O1 O2]. constructor; simp; auto.
Qed.

Lemma inv_signal : forall s s1 r, Inv s -> do_signal s = Ok s1 r -> Inv s1 /\ cond s1 = tl (cond s).
Proof.
  intros s s1 r H E. unfold do_signal in E. destruct (cond s) as [|t c] eqn:C.
  - injection E as <- <-. rewrite C. auto.
  - destruct (take_first s t c true H C) as (L & O & IC).
    destruct (on_notify _ t) as [s2|] eqn:EN; [|discriminate]. injection E as <- <-.
    destruct (inv_notify _ _ _ L O IC EN) as [I1 C1]. split; [exact I1|exact C1].
Qed.

Lemma inv_notify_list : forall l s s1, Inv s -> cond s = l -> notify_list s l = Some s1 -> Inv s1 /\ cond s1 = [].
Proof.
  induction l as [|t l IH]; intros s s1 H C E; cbn [notify_list] in E.
  - injection E as <-. auto.
  - destruct (take_first s t l true H C) as (L & O & IC).
    destruct (on_notify _ t) as [s2|] eqn:EN; [|discriminate].
    destruct (inv_notify _ _ _ L O IC EN) as [I1 C1]. apply (IH s2 s1 I1 C1 E).
Qed.

Lemma inv_alarm : forall s t s1 r, Inv s -> in_cond (pcs s t) = true -> do_alarm s t = Ok s1 r -> Inv s1.
Proof.
  intros s t s1 r [L O] IC E. unfold do_alarm in E. destruct (existsb (Nat.eqb t) (cond s)) eqn:X.
  - destruct (on_notify _ t) as [s2|] eqn:EN; [|discriminate]. injection E as <- <-.
    refine (proj1 (inv_notify _ _ _ _ _ _ EN)); [| |exact IC].
    + destruct L as [L1 L2 L3 [N1 N2] L5]. constructor; simp; auto.
      * intros x _. apply L1. discriminate.
      * intros x D. rewrite <- L2 by discriminate. split; [intros Q; apply in_remove in Q; tauto|].
        intros Q. apply in_in_remove; [congruence|exact Q].
      * intros x Q. injection Q as <-. split.
        -- rewrite L1 by discriminate. destruct (pcs s t); cbn in *; congruence.
        -- intros Q. apply in_remove in Q. tauto.
      * split; [exact N1|apply nodup_remove; exact N2].
    + destruct O as [O1 O2]. constructor; simp; auto.
  - injection E as <- <-. split; assumption.
Qed.

Lemma inv_step : forall s l s1 r, Inv s -> step s l = Ok s1 r -> Inv s1.
Proof.
  intros s l s1 r H E. destruct l as [t|t|t a|t|t|t|t|d]; cbn [step] in E.
  - destruct (pcs s t) eqn:HP; try discriminate. eapply inv_lock; eauto.
  - destruct (pcs s t) eqn:HP; try discriminate. eapply inv_unlock; eauto.
  - destruct (pcs s t) eqn:HP; try discriminate. eapply inv_wait; eauto.
  - destruct (pcs s t) eqn:HP; try discriminate. eapply inv_block; eauto.
  - destruct (pcs s t) eqn:HP; try discriminate. eapply inv_signal; eauto.
  - destruct (pcs s t) eqn:HP; try discriminate. unfold do_broadcast in E.
    destruct (notify_list s (cond s)) as [s2|] eqn:EN; [|discriminate]. injection E as <- <-.
    eapply inv_notify_list; eauto.
  - destruct (pcs s t) as [| | |[dl|] sv|] eqn:HP; try discriminate.
    destruct (dl <=? now s)%Z; [|discriminate]. eapply inv_alarm; eauto. rewrite HP. reflexivity.
  - injection E as <- <-. destruct H as [[L1 L2 L3 L4 L5] [O1 O2]]. split; constructor; simp; auto.
Qed.

Lemma inv_run : forall s tr s2, run s tr s2 -> Inv s -> Inv s2.
Proof. induction 1 as [s|s l r s1 tr s2 E R IH]; intros H; auto. apply IH. eapply inv_step; eauto. Qed.

(* While the mutex is held by a running thread, nobody is half-way into a
   wait, so notifying is defined. *)
Lemma notify_defined : forall s t w, Own s -> owner s = Some w -> pcs s w = Idle ->
  in_cond (pcs s t) = true ->
  exists s1 sv, on_notify s t = Some s1 /\ owner s1 = Some w /\ pcs s1 w = Idle /\ pcs s1 t = ReLock sv.
Proof.
  intros s t w [O1 O2] EO HP IC. unfold on_notify. rewrite EO.
  assert (D : w <> t) by (intros ->; rewrite HP in IC; discriminate).
  destruct (pcs s t) as [| |dl|dl sv|] eqn:EP; try discriminate.
  - assert (E : is_enq (pcs s t) = true) by (rewrite EP; reflexivity). apply O2 in E. congruence.
  - exists (set_pc (set_lock s (Some w) (rec s) (queue s ++ [t])) t (ReLock sv)), sv.
    split; [reflexivity|]. simp. updc. auto.
Qed.

Lemma notify_list_defined : forall l s w, Inv s -> cond s = l -> owner s = Some w -> pcs s w = Idle ->
  exists s1, notify_list s l = Some s1.
Proof.
  induction l as [|t l IH]; intros s w H C EO HP; cbn [notify_list]; [eauto|].
  destruct (take_first s t l true H C) as (L & O & IC).
  destruct (notify_defined (set_sig (set_cond s l) t true) t w O EO HP IC) as (s1 & sv & E & EO1 & HP1 & _).
  rewrite E. destruct (inv_notify _ _ _ L O IC E) as [I1 C1]. apply (IH s1 w I1 C1 EO1 HP1).
Qed.

(* The depth at which a waiting thread will hold the mutex again. *)
Definition keeps (t n : nat) (s : state) : Prop :=
  match pcs s t with
  | Idle | Enq _ => held s t = n
  | CondWait _ sv | ReLock sv => sv = n
  | LockWait => False
  end.

Definition by_other (t : nat) (l : label) : Prop :=
  match l with
  | LLock u | LUnlock u | LWait u _ => u <> t
  | _ => True
  end.

Lemma keeps_grant : forall s u t n, keeps t n s -> (u = t -> in_queue (pcs s u) = true \/ exists d sv, pcs s u = CondWait d sv) ->
  keeps t n (grant s u).
Proof.
  intros s u t n K W. unfold keeps, grant in *. simp. who t u; [|exact K].
  destruct (W eq_refl) as [Q|(d & sv & Q)]; [|rewrite Q in *; exact K].
  destruct (pcs s u); cbn in Q; try discriminate; [destruct K|exact K].
Qed.

Lemma keeps_pop : forall s t n, (forall u, In u (queue s) -> in_queue (pcs s u) = true) ->
  keeps t n s -> keeps t n (pop_node s).
Proof.
  intros s t n HQ K. unfold pop_node. destruct (queue s) as [|u q] eqn:Q.
  - exact K.
  - apply keeps_grant; [exact K|]. intros _. left. apply HQ. left. reflexivity.
Qed.

Lemma keeps_notify : forall s u t n s1, Own s -> in_cond (pcs s u) = true -> on_notify s u = Some s1 ->
  keeps t n s -> keeps t n s1.
Proof.
  intros s u t n s1 O IC E K. unfold on_notify in E. destruct (owner s) as [w|] eqn:EO.
  - destruct (pcs s u) as [| | |dl sv|] eqn:EP; try discriminate. injection E as <-.
    unfold keeps in *. simp. who t u; [|exact K]. rewrite EP in K. exact K.
  - injection E as <-. apply keeps_grant; [exact K|]. intros _. right.
    destruct (own_free s O EO u) as [_ NE]. destruct (pcs s u); cbn in IC, NE; try discriminate. eauto.
Qed.

Lemma keeps_notify_list : forall l s t n s1, Inv s -> cond s = l -> notify_list s l = Some s1 ->
  keeps t n s -> keeps t n s1.
Proof.
  induction l as [|u l IH]; intros s t n s1 H C E K; cbn [notify_list] in E.
  - injection E as <-. exact K.
  - destruct (take_first s u l true H C) as (L & O & IC).
    destruct (on_notify _ u) as [s2|] eqn:EN; [|discriminate].
    destruct (inv_notify _ _ _ L O IC EN) as [I1 C1]. apply (IH s2 t n s1 I1 C1 E).
    apply (keeps_notify _ _ _ _ _ O IC EN). exact K.
Qed.

Lemma keeps_step : forall s l s1 r t n, Inv s -> step s l = Ok s1 r -> by_other t l ->
  keeps t n s -> keeps t n s1.
Proof.
  intros s l s1 r t n H E B K. pose proof H as [L O].
  assert (HQ : forall u, In u (queue s) -> in_queue (pcs s u) = true) by (intros u; apply (l_queue s None L u); discriminate).
  destruct l as [u|u|u a|u|u|u|u|d]; cbn [step by_other] in *.
  - destruct (pcs s u) eqn:HP; try discriminate. unfold do_lock in E.
    destruct (is_me (owner s) u).
    + injection E as <- <-. unfold keeps in *. simp. rewrite (upd_other _ _ u) by auto. exact K.
    + destruct (owner s); injection E as <- <-.
      * unfold keeps in *. simp. rewrite (upd_other _ _ u) by auto. exact K.
      * apply keeps_grant; [exact K|]. intros ->. congruence.
  - destruct (pcs s u) eqn:HP; try discriminate. unfold do_unlock in E.
    destruct (negb _); [injection E as <- <-; exact K|].
    assert (K1 : keeps t n (set_held (set_lock s (owner s) (pred (rec s)) (queue s)) u (pred (held s u)))).
    { unfold keeps in *. simp. rewrite (upd_other _ _ u) by auto. exact K. }
    destruct (Nat.eqb _ _); injection E as <- <-; [|exact K1]. apply keeps_pop; [exact HQ|exact K1].
  - destruct (pcs s u) eqn:HP; try discriminate. unfold do_wait in E.
    destruct (negb (is_me _ _)); [discriminate|]. destruct (negb (ready s)); [discriminate|]. injection E as <- <-.
    unfold keeps in *. simp. rewrite (upd_other _ _ u) by auto. exact K.
  - destruct (pcs s u) as [| |dl| |] eqn:HP; try discriminate. unfold do_block in E. injection E as <- <-.
    assert (EO : owner s = Some u) by (apply (o_enq s O); rewrite HP; reflexivity).
    pose proof (o_own s O) as OW. rewrite EO in OW. destruct OW as (R & _).
    apply keeps_pop.
    + simp. intros x Hx. specialize (HQ x Hx). who x u; [|exact HQ]. rewrite HP in HQ. discriminate.
    + unfold keeps in *. simp. who t u; [rewrite HP in K; congruence|exact K].
  - destruct (pcs s u) eqn:HP; try discriminate. unfold do_signal in E. destruct (cond s) as [|x c] eqn:C.
    + injection E as <- <-. exact K.
    + destruct (take_first s x c true H C) as (L1 & O1 & IC).
      destruct (on_notify _ x) as [s2|] eqn:EN; [|discriminate]. injection E as <- <-.
      apply (keeps_notify _ _ _ _ _ O1 IC EN). exact K.
  - destruct (pcs s u) eqn:HP; try discriminate. unfold do_broadcast in E.
    destruct (notify_list s (cond s)) as [s2|] eqn:EN; [|discriminate]. injection E as <- <-.
    apply (keeps_notify_list _ _ _ _ _ H eq_refl EN K).
  - destruct (pcs s u) as [| | |[dl|] sv|] eqn:HP; try discriminate. destruct (dl <=? now s)%Z; [|discriminate].
    unfold do_alarm in E. destruct (existsb _ _); [|injection E as <- <-; exact K].
    destruct (on_notify _ u) as [s2|] eqn:EN; [|discriminate]. injection E as <- <-.
    refine (keeps_notify _ u t n _ _ _ EN _).
    + destruct O as [O1 O2]. constructor; simp; auto.
    + simp. rewrite HP. reflexivity.
    + exact K.
  - injection E as <- <-. exact K.
Qed.

Lemma keeps_run : forall s tr s2, run s tr s2 -> forall t n, Inv s -> keeps t n s ->
  Forall (fun x => by_other t (fst x)) tr -> keeps t n s2.
Proof.
  induction 1 as [s|s l r s1 tr s2 E R IH]; intros t n H K F; auto.
  inversion F; subst. apply IH; auto; [eapply inv_step; eauto|eapply keeps_step; eauto].
Qed.

Lemma mrun_run : forall s tr s2, mrun s tr s2 -> run s tr s2.
Proof. induction 1; econstructor; eauto. Qed.

Lemma ready_step : forall s l s1 r, step s l = Ok s1 r -> ready s1 = ready s.
Proof.
  assert (G : forall s u, ready (grant s u) = ready s) by reflexivity.
  assert (P : forall s, ready (pop_node s) = ready s).
  { intros s. unfold pop_node. destruct (queue s); reflexivity. }
  assert (NT : forall s t s1, on_notify s t = Some s1 -> ready s1 = ready s).
  { intros s t s1 E. unfold on_notify in E. destruct (owner s).
    - destruct (pcs s t); try discriminate. injection E as <-. reflexivity.
    - injection E as <-. reflexivity. }
  assert (NL : forall l s s1, notify_list s l = Some s1 -> ready s1 = ready s).
  { induction l as [|t l IH]; intros s s1 E; cbn [notify_list] in E; [congruence|].
    destruct (on_notify _ t) as [s2|] eqn:EN; [|discriminate]. apply IH in E. apply NT in EN. rewrite E, EN. reflexivity. }
  intros s l s1 r E. destruct l as [t|t|t a|t|t|t|t|d]; cbn [step] in E.
  - destruct (pcs s t); try discriminate. unfold do_lock in E. destruct (is_me _ _); [injection E as <- <-; reflexivity|].
    destruct (owner s); injection E as <- <-; reflexivity.
  - destruct (pcs s t); try discriminate. unfold do_unlock in E. destruct (negb _); [injection E as <- <-; reflexivity|].
    destruct (Nat.eqb _ _); injection E as <- <-; [rewrite P|]; reflexivity.
  - destruct (pcs s t); try discriminate. unfold do_wait in E. destruct (negb _); [discriminate|].
    destruct (negb (ready s)); [discriminate|]. injection E as <- <-. reflexivity.
  - destruct (pcs s t); try discriminate. unfold do_block in E. injection E as <- <-. rewrite P. reflexivity.
  - destruct (pcs s t); try discriminate. unfold do_signal in E. destruct (cond s) as [|x c]; [injection E as <- <-; reflexivity|].
    destruct (on_notify _ x) eqn:EN; [|discriminate]. injection E as <- <-. apply NT in EN. rewrite EN. reflexivity.
  - destruct (pcs s t); try discriminate. unfold do_broadcast in E.
    destruct (notify_list _ _) eqn:EN; [|discriminate]. injection E as <- <-. apply NL in EN. exact EN.
  - destruct (pcs s t) as [| | |[dl|] sv|]; try discriminate. destruct (_ <=? _)%Z; [|discriminate]. unfold do_alarm in E.
    destruct (existsb _ _); [|injection E as <- <-; reflexivity].
    destruct (on_notify _ t) eqn:EN; [|discriminate]. injection E as <- <-. apply NT in EN. rewrite EN. reflexivity.
  - injection E as <- <-. reflexivity.
Qed.

Lemma ready_run : forall s tr s2, run s tr s2 -> ready s2 = ready s.
Proof. induction 1; auto. rewrite IHrun. eapply ready_step; eauto. Qed.
