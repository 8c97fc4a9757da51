(* C77: thread-specific data of the pthread layer. *)

From Coq Require Import List Bool Arith Lia.
From Verif.PthreadKeys Require Import Model Spec Proofs Ends.
Import ListNotations.

(* Whatever the threads do, and however the ends of threads are interleaved
   with it, the answers of create, delete, set and get are those of a plain map
   from (thread, key) to the value last set since the key was created. *)
Theorem C77_values : forall N junk tr s,
  run N junk init tr s -> exists a, accepts_tab N ainit tr a.
Proof.
  intros N junk tr s R. destruct (tab_run N junk _ _ _ R ainit (init_tab N)) as (a & A & _). eauto.
Qed.
Print Assumptions C77_values.

(* The same in two direct forms.  A new key reads as NULL in every thread. *)
Theorem C77_new_key_null : forall N junk tr s d k s1 t,
  run N junk init tr s -> step N junk s (LCreate d) = Ok s1 (RKey k) -> st s1 t = Running ->
  k < N /\ step N junk s1 (LGet t k) = Ok s1 (RVal 0).
Proof.
  intros N junk tr s d k s1 t R E HR.
  destruct (tab_run N junk _ _ _ R ainit (init_tab N)) as (a & _ & T).
  destruct (tab_step N junk s a (LCreate d) s1 (RKey k) T E) as (a1 & T1 & A). cbn [is_table_op] in A.
  inversion A; subst. split; [assumption|]. cbn [step]. rewrite HR. do 2 f_equal.
  pose proof (get_tab N s1 _ t k T1 HR) as G. inversion G as [| | | | | | |? ? ? L|? ? ? NL| | | | ]; subst; auto.
  cbn [avals]. now rewrite upd_same.
Qed.
Print Assumptions C77_new_key_null.

(* A value stays until its thread sets it again or the key is deleted. *)
Definition leaves_alone (t k : nat) (l : label) : Prop :=
  match l with LDelete k' => k' <> k | LSet t' k' _ => ~ (t' = t /\ k' = k) | _ => True end.

Lemma tab_keep : forall N junk s tr s2, run N junk s tr s2 -> forall a t k,
  Tab N s a -> live N a k -> Forall (fun x => leaves_alone t k (fst x)) tr ->
  exists a2, Tab N s2 a2 /\ live N a2 k /\ avals a2 t k = avals a t k.
Proof.
  induction 1 as [s|s l r s1 tr s2 E R IH]; intros a t k T L F.
  - exists a. auto.
  - inversion F as [|? ? F1 F2]; subst. cbn [fst] in F1.
    destruct (tab_step N junk s a l s1 r T E) as (a1 & T1 & A).
    assert (Q : live N a1 k /\ avals a1 t k = avals a t k).
    { destruct (is_table_op l) eqn:O; [|now subst a1].
      destruct L as [Lk La].
      destruct A; cbn [leaves_alone] in F1; unfold live; cbn [alive avals]; try discriminate; auto.
      - assert (k <> k0) by congruence. rewrite !upd_other by auto. auto.
      - rewrite upd_other by auto. auto.
      - split; [auto|]. unfold upd. destruct (Nat.eqb_spec t t0) as [->|]; [|reflexivity].
        destruct (Nat.eqb_spec k k0) as [->|]; [tauto|reflexivity]. }
    destruct Q as [L1 Q]. destruct (IH a1 t k T1 L1 F2) as (a2 & T2 & L2 & Q2).
    exists a2. split; [exact T2|]. split; [exact L2|]. congruence.
Qed.

Theorem C77_get_after_set : forall N junk tr0 s0 t k v s1 tr s2,
  run N junk init tr0 s0 -> step N junk s0 (LSet t k v) = Ok s1 ROk ->
  run N junk s1 tr s2 -> Forall (fun x => leaves_alone t k (fst x)) tr -> st s2 t = Running ->
  step N junk s2 (LGet t k) = Ok s2 (RVal v).
Proof.
  intros N junk tr0 s0 t k v s1 tr s2 R0 E R F HR.
  destruct (tab_run N junk _ _ _ R0 ainit (init_tab N)) as (a & _ & T).
  destruct (tab_step N junk s0 a _ s1 ROk T E) as (a1 & T1 & A). cbn [is_table_op] in A.
  inversion A as [| | | |? ? ? ? L| | | | | | | | ]; subst.
  assert (L1 : live N (mkA (alive a) (adtor a) (upd (avals a) t (upd (avals a t) k v)) (owed a)) k) by exact L.
  destruct (tab_keep N junk _ _ _ R _ t k T1 L1 F) as (a2 & T2 & L2 & Q).
  cbn [avals] in Q. rewrite !upd_same in Q.
  cbn [step]. rewrite HR. do 2 f_equal.
  pose proof (get_tab N s2 a2 t k T2 HR) as G.
  inversion G as [| | | | | |? ? ? LL| ? ? ? NL| | | | | ]; subst; tauto.
Qed.
Print Assumptions C77_get_after_set.

(* Destructors.  Unless a key is deleted in the moment before its destructor
   is called, the calls are the owed ones, once each, with the right destructor
   and argument, all of them before the thread is gone, and nothing undefined
   happens.  The full statement drops [polite]; it fails, see below. *)
Theorem C77_destructors_partial : forall N junk tr s,
  prun N junk init tr s -> exists a, accepts N ainit tr a.
Proof.
  intros N junk tr s R. destruct (sim_run N junk _ _ _ R ainit (sim_init N)) as (a & A & _). eauto.
Qed.
Print Assumptions C77_destructors_partial.

Theorem C77_defined_partial : forall N junk tr s l,
  prun N junk init tr s -> polite s l -> step N junk s l <> Undef.
Proof.
  intros N junk tr s l R P E. destruct (sim_run N junk _ _ _ R ainit (sim_init N)) as (a & _ & S).
  pose proof (sim_step N junk s a l S P) as H. rewrite E in H. exact H.
Qed.
Print Assumptions C77_defined_partial.

(* Two threads and a key with destructor 7; thread 1 sets 50 and ends, thread 0
   joins it: destructor 7 is called with 50, once, and the values of thread 0
   are as before. *)
Example C77_example :
  fst (exec 2 99 init [LCreate 7; LSet 0 0 40; LSet 1 0 50; LGet 1 0; LEnd 1 0; LScan 1; LCall 1; LBack 1;
                       LScan 1; LScan 1; LScan 1; LScan 1; LScan 1; LGet 0 0; LCreate 0; LCreate 0])
  = Some [RKey 0; ROk; ROk; RVal 50; RNone; RNone; RCall 0 7 50; RNone;
          RNone; RNone; RNone; RNone; RGone; RVal 40; RKey 1; REAgain].
Proof. reflexivity. Qed.

(* The destructor pointer is tested under key_lock but read again after the
   lock is given up: deleting the key in between makes the code call NULL. *)
Theorem C77_delete_race_refuted : forall N junk, 0 < N ->
  exec N junk init [LCreate 7; LSet 1 0 50; LEnd 1 0; LScan 1; LDelete 0; LCall 1] = (None, Undef).
Proof. intros N junk HN. destruct N as [|N]; [lia|]. vm_compute. reflexivity. Qed.
Print Assumptions C77_delete_race_refuted.

(* If the key is deleted and created again in that moment, the destructor of
   the new key is called with a value that was never stored under it. *)
Theorem C77_stale_value_refuted : forall N junk, 0 < N ->
  fst (exec N junk init
    [LCreate 7; LSet 1 0 50; LEnd 1 0; LScan 1; LDelete 0; LCreate 8; LCall 1])
  = Some [RKey 0; ROk; RNone; RNone; ROk; RKey 0; RCall 0 8 50].
Proof. intros N junk HN. destruct N as [|N]; [lia|]. vm_compute. reflexivity. Qed.
Print Assumptions C77_stale_value_refuted.

(* POSIX has a thread run its own destructors.  Here no call is ever made by
   the thread it is made for, but by the thread that joins it... *)
Theorem C77_own_thread_refuted : forall N junk tr s,
  run N junk init tr s -> Forall (fun c => c_by c <> c_for c) (calls s).
Proof.
  intros N junk tr s R. apply (runner_run N junk _ _ _ R). split; [|constructor].
  intros t H. exfalso. apply H. reflexivity.
Qed.
Print Assumptions C77_own_thread_refuted.

(* ... so that a destructor that clears the key of its own thread, as POSIX
   programs do, wipes the value of the joining thread instead. *)
Theorem C77_join_keeps_values_refuted : forall N junk, 0 < N ->
  fst (exec N junk init
    [LCreate 7; LSet 0 0 40; LSet 1 0 50; LGet 0 0; LEnd 1 0; LScan 1; LCall 1;
     LSet 0 0 0 (* pthread_setspecific( key, NULL ) inside the destructor *); LBack 1; LGet 0 0])
  = Some [RKey 0; ROk; ROk; RVal 40; RNone; RNone; RCall 0 7 50; ROk; RNone; RVal 0].
Proof. intros N junk HN. destruct N as [|N]; [lia|]. vm_compute. reflexivity. Qed.
Print Assumptions C77_join_keeps_values_refuted.
