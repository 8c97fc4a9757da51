(** C30: queue locks. [SpinFresh] builds a node per acquisition, [Block] is the blocking lock with reused nodes. *)
From Coq Require Import List Bool Arith Lia.
From Verif.McsLock Require Import Spec Model Proofs.
Import ListNotations.

Definition inside (s : st) (t : nat) : bool := match pcs s t with Hold => true | _ => false end.
Definition busy (s : st) (t : nat) : Prop := pcs s t <> Idle /\ pcs s t <> Start.

(** At most one thread inside: all three kinds, reused nodes included. *)
Theorem C30_exclusive : forall k s, reach k s -> exclusive (inside s).
Proof.
  intros k s R t u A B. assert (E : forall x, inside s x = true -> pcs s x = Hold) by (intros x; unfold inside; destruct (pcs s x); congruence).
  apply E in A, B. destruct k.
  - apply (excl Block s); auto; [discriminate|now rewrite A|now rewrite B].
  - apply (excl SpinFresh s); auto; [discriminate|now rewrite A|now rewrite B].
  - destruct (reach_tinv s R) as [_ T]. apply T; unfold tok; [now rewrite A|now rewrite B].
Qed.
Print Assumptions C30_exclusive.

(** Threads enter in the order they exchanged the tail. *)
Theorem C30_fifo : forall k s, k <> SpinReuse -> reach k s -> in_order (ent s) (arr s).
Proof.
  intros k s KR R. destruct (reach_inv k s KR R) as (Q & D & _ & _ & _ & _ & _ & _ & FA & FE). unfold in_order. rewrite FA, FE.
  destruct Q as [|h Q]; [exists []; now rewrite !app_nil_r|]. destruct (entered (pcs s h)); [exists Q; now rewrite <- app_assoc|exists (h :: Q); now rewrite app_nil_r].
Qed.
Print Assumptions C30_fifo.

(** The number of threads that have left plus the waiting and holding ones accounts for every arrival; nobody in the lock
    means the tail is empty, so that the next arrival enters at once. *)
Theorem C30_free : forall k s, k <> SpinReuse -> reach k s -> (tail s = None <-> forall t, ~ busy s t).
Proof.
  intros k s KR R. destruct (reach_inv k s KR R) as (Q & D & ND & QI & TL & _). unfold busy. split.
  - intros T t [A B]. destruct Q; [|rewrite TL in T; discriminate]. assert (X : idle (pcs s t) = false) by (destruct (pcs s t); try reflexivity; congruence). apply QI in X. destruct X.
  - intros H. destruct Q as [|h Q]; [exact TL|]. exfalso. assert (X : idle (pcs s h) = false) by (apply QI; now left). apply (H h). destruct (pcs s h); (discriminate X || (split; discriminate)).
Qed.
Print Assumptions C30_free.

(** Whenever somebody is in the lock, some thread in it makes progress with its next step: no thread is left waiting for
    an event that nobody will cause. *)
Theorem C30_progress : forall k s t, k <> SpinReuse -> reach k s -> busy s t -> exists u s', busy s u /\ step k s u = Some s' /\ pcs s' u <> pcs s u.
Proof.
  intros k s t KR R [B1 B2]. destruct (reach_inv k s KR R) as (Q & D & ND & QI & TL & CH & HD & _).
  assert (I : In t Q) by (apply QI; destruct (pcs s t); (reflexivity || congruence)). destruct Q as [|h Q]; [destruct I|]. clear I.
  unfold headok in HD. unfold busy. destruct (pcs s h) as [| |p| | | | |r|r] eqn:K; try contradiction.
  - exists h. unfold step. rewrite K, HD. eexists. split; [split; discriminate|]. split; [reflexivity|]. sf. rewrite upd_same. discriminate.
  - exists h. unfold step. rewrite K. eexists. split; [split; discriminate|]. split; [reflexivity|]. sf. rewrite upd_same. discriminate.
  - exists h. unfold step. rewrite K, TL. destruct (last Q h =? h); (eexists; split; [split; discriminate|]; split; [reflexivity|]; sf; rewrite upd_same; discriminate).
  - destruct (next s h) as [r|] eqn:NX.
    + exists h. unfold step. rewrite K, NX. eexists. split; [split; discriminate|]. split; [reflexivity|]. sf. rewrite upd_same. destruct k; discriminate.
    + destruct Q as [|b Q]; [destruct HD as [HD _]; now contradiction HD|]. apply chain_cons2' in CH. destruct CH as [[O C] _].
      destruct C as [[C1 C2]|[C1 [C2|[_ [C2 _]]]]]; try congruence. exists b. unfold step. rewrite C1. eexists. split; [split; discriminate|]. split; [reflexivity|]. sf. rewrite upd_same. discriminate.
  - exists h. unfold step. rewrite K. eexists. split; [split; discriminate|]. split; [reflexivity|]. sf. rewrite upd_same. discriminate.
  - exists h. unfold step. rewrite K. eexists. split; [split; discriminate|]. split; [reflexivity|]. sf. rewrite upd_same. discriminate.
Qed.
Print Assumptions C30_progress.

(** The hand-off: the leaving thread lets in the thread that arrived directly after it, whose next step enters. *)
Theorem C30_handoff : forall k s t r s', k <> SpinReuse -> reach k s -> pcs s t = Grant r -> step k s t = Some s' ->
  (exists l1 l2, arr s' = l1 ++ t :: r :: l2 /\ ent s' = l1 ++ [t]) /\ exists s2, step k s' r = Some s2 /\ inside s2 r = true.
Proof.
  intros k s t r s' KR R G H. destruct (reach_inv k s KR R) as (Q & D & I). assert (I' := I).
  destruct I as (ND & QI & TL & CH & HD & FR & FA & FE). destruct (holder_head k s Q D t I') as [Q' E]; [now rewrite G|]. subst Q.
  unfold headok in HD. rewrite G in HD. destruct HD as (S2 & (b & B1 & B2) & _). rewrite B2 in B1. destruct Q' as [|c Q']; [discriminate|]. inversion S2; subst c.
  unfold step in H. rewrite G in H. inversion H; subst; clear H.
  assert (N : r <> t) by (intros ->; rewrite G in B1; discriminate). split.
  - exists D, Q'. sf. rewrite FA, FE, G. auto.
  - unfold step; sf. rewrite (upd_other _ _ t r), B1, upd_same by exact N. eexists. split; [reflexivity|]. unfold inside; sf. now rewrite upd_same.
Qed.
Print Assumptions C30_handoff.

Fixpoint go (k : kind) (s : st) (l : list nat) : option st := match l with [] => Some s | t :: l' => match step k s t with Some s' => go k s' l' | None => None end end.
Lemma go_reach : forall k l s s', reach k s -> go k s l = Some s' -> reach k s'.
Proof. induction l as [|t l IH]; cbn; intros s s' R H; [congruence|]. destruct (step k s t) eqn:E; [|discriminate]. eapply IH; [|exact H]. eapply r_step; eauto. Qed.

(** locks.hfa:217-236 leaves the node's link as it was. With a node used again, a thread that queues behind its owner can
    be passed over and then never woken, although the lock is free and nobody else is in it. *)
Definition reuse_run : list nat :=
  [0;0; 1;1;1; 0;0;0;0;      (* 0 enters, 1 queues behind it, 0 leaves: link of 0 still names 1 *)
   1; 0;0;0; 1;1;1;1; 0;     (* 1 enters, 0 queues with its old node, 1 leaves, 0 enters *)
   2;2; 1;1;                 (* 2 and then 1 exchange the tail *)
   0;0;0;0;                  (* 0 leaves: it follows the old link and lets 1 in *)
   2; 1;1; 1;1].             (* 2 waits; 1 enters and leaves, emptying the tail *)
Theorem C30_reuse_refuted : exists s, reach SpinReuse s /\ ~ in_order (ent s) (arr s) /\ tail s = None /\ pcs s 2 = Wait /\ ok s 2 = false /\ forall t, t <> 2 -> pcs s t = Idle.
Proof.
  destruct (go SpinReuse init reuse_run) as [s|] eqn:E; [|vm_compute in E; discriminate]. exists s. split; [exact (go_reach _ _ _ _ (r_init _) E)|].
  vm_compute in E. inversion E; subst; clear E. split; [|split; [reflexivity|split; [reflexivity|split; [reflexivity|]]]].
  - intros [w W]. cbn in W. discriminate.
  - intros t N. sf. do 3 (destruct t as [|t]; [try reflexivity; congruence|]). reflexivity.
Qed.
Print Assumptions C30_reuse_refuted.

(** spin_queue_lock and mcs_block_spin_lock. *)
Definition inside2 (z : st2) (t : nat) : bool := match ph z t with PHold => true | _ => false end.
Theorem C30_block_spin_exclusive : forall k z, k <> SpinReuse -> reach2 k z -> exclusive (inside2 z) /\ (held z = true <-> exists t, own z t = true).
Proof.
  intros k z KR R. destruct (reach_cinv k z KR R) as (_ & _ & O & U & HO). split; [|split; [exact HO|intros [t X]; eapply O; eauto]].
  intros t u A B. apply U; unfold own; unfold inside2 in *; [destruct (ph z t)|destruct (ph z u)]; congruence.
Qed.
Print Assumptions C30_block_spin_exclusive.

Example C30_example : exists s, go Block init [0;0; 1;1; 2;2; 2; 0;0; 1; 0;0;0; 1] = Some s /\ arr s = [0; 1; 2] /\ ent s = [0; 1] /\ inside s 1 = true /\ pcs s 2 = Wait /\ next s 0 = None.
Proof. vm_compute. eexists. repeat split. Qed.
Fixpoint go2 (k : kind) (s : st2) (l : list nat) : option st2 := match l with [] => Some s | t :: l' => match step2 k s t with Some s' => go2 k s' l' | None => None end end.
Example C30_example2 : exists z, go2 SpinFresh init2 [0;0;0;0;0;0;0; 1;1;1;1] = Some z /\ inside2 z 0 = true /\ held z = true /\ pcs (inn z) 1 = Hold /\ ph z 1 = PAcq.
Proof. vm_compute. eexists. repeat split. Qed.
