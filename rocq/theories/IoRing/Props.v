(** C92: entries of the submission ring are never lost, shared or reordered *)
From Coq Require Import List Bool Arith ZArith Lia ZifyBool Permutation.
From Verif.IoRing Require Import Model Spec Proofs.
Import ListNotations.
Open Scope Z_scope.
Lemma z2 k : 0 <= k -> Z.of_nat (Z.to_nat (2 ^ k)) = 2 ^ k.
Proof. intros H. assert (0 < 2 ^ k) by (apply Z.pow_pos_nonneg; lia). lia. Qed.
(** The ring with its counters that wrap around does what the queues do *)
Theorem C92_refines : forall k k0 os xs b, 0 <= k <= 31 -> legals (start (Z.to_nat (2 ^ k))) os xs b -> fst (run (setup (2 ^ k) k0) os) = xs.
Proof. intros k k0 os xs b K L. apply (simulates_all k K os _ _ _ _ (sim_start k K k0) L). Qed.
Print Assumptions C92_refines.
(** and some such history exists for all operations that the clients and the kernel may do *)
Theorem C92_total : forall a o, allowed a o -> exists x b, legal a o x b.
Proof.
  intros [f h q] [n|l|[n|]] H; cbn [allowed held queue] in H.
  - destruct (le_lt_dec n (length f)); do 2 eexists; [apply l_alloc; auto|apply l_full; auto].
  - destruct H as (h' & H). do 2 eexists. apply l_submit; eauto.
  - do 2 eexists. apply l_enter; auto.
  - do 2 eexists. apply l_busy.
Qed.
Print Assumptions C92_total.
(** every entry is at all times either free, or with one client, or in the ring; so clients never have the same entry *)
Theorem C92_conserved : forall k k0 os xs b, 0 <= k <= 31 -> legals (start (Z.to_nat (2 ^ k))) os xs b ->
  let r := snd (run (setup (2 ^ k) k0) os) in
  Permutation (read (nm r) (farr r) (fh r) (Z.to_nat (w32 (ft r - fh r))) ++ held b ++ read (nm r) (karr r) (kh r) (Z.to_nat (ts r))) (iota (Z.to_nat (2 ^ k))) /\ NoDup (held b) /\
  Forall (fun x => match x with Got l => NoDup l | _ => True end) xs.
Proof.
  intros k k0 os xs b K L r. destruct (simulates_all k K os _ _ _ _ (sim_start k K k0) L) as [_ S1]. fold r in S1.
  assert (P : forall c, Permutation (free c ++ held c ++ queue c) (iota (Z.to_nat (2 ^ k))) -> NoDup (held c) /\ NoDup (free c)).
  { intros c Q. pose proof (Permutation_NoDup (Permutation_sym Q) (nodup_iota _)) as N. split; [apply nodup_r in N; apply nodup_l in N; auto|apply nodup_l in N; auto]. }
  split; [|split].
  - rewrite (s_nm _ _ _ S1), (s_fl _ _ _ S1), (s_ts _ _ _ S1), !Nat2Z.id, (s_f _ _ _ S1), (s_k _ _ _ S1). apply (s_all _ _ _ S1).
  - apply (P b). apply (s_all _ _ _ S1).
  - clear r S1. pose proof (sim_start k K k0) as S0. revert S0 L. generalize (setup (2 ^ k) k0) as r0. generalize (start (Z.to_nat (2 ^ k))) as a. revert xs. induction os as [|o os IH]; intros xs a r0 S0 L; inversion L as [|? ? x c ? ys ? L1 L2]; subst; [constructor|].
    destruct (simulates k K _ _ _ _ _ S0 L1) as [_ S1]. constructor; [|eapply IH; eauto].
    destruct L1; auto. pose proof (proj2 (P _ (s_all _ _ _ S0))) as N. cbn [free] in N. rewrite <- (firstn_skipn n f) in N. apply nodup_l in N. auto.
Qed.
Print Assumptions C92_conserved.
(** the kernel sees every submitted entry once, in the order of submission *)
Theorem C92_fifo : forall k k0 os xs b, 0 <= k <= 31 -> legals (start (Z.to_nat (2 ^ k))) os xs b ->
  exists waiting, submitted os = seen (fst (run (setup (2 ^ k) k0) os)) ++ waiting /\ waiting = queue b.
Proof.
  intros k k0 os xs b K L. exists (queue b). split; auto. rewrite (C92_refines k k0 os xs b K L). pose proof (legal_fifo _ _ _ _ L) as F. cbn [start queue app] in F. exact F.
Qed.
Print Assumptions C92_fifo.
(** an allocation that fits succeeds: entries do not get lost *)
Theorem C92_available : forall k k0 os xs b n, 0 <= k <= 31 -> legals (start (Z.to_nat (2 ^ k))) os xs b ->
  Z.of_nat n + Z.of_nat (length (held b)) + Z.of_nat (length (queue b)) <= 2 ^ k -> exists l r', alloc (snd (run (setup (2 ^ k) k0) os)) n = Some (l, r') /\ length l = n.
Proof.
  intros k k0 os xs b n K L H. destruct (simulates_all k K os _ _ _ _ (sim_start k K k0) L) as [_ S1]. pose proof (s_count k K _ _ S1) as C. cbv zeta in C.
  unfold alloc. rewrite (s_fl _ _ _ S1). replace (Z.of_nat (length (free b)) <? Z.of_nat n) with false by lia. do 2 eexists. split; [reflexivity|apply read_length].
Qed.
Print Assumptions C92_available.
(** the ring is taken down without complaint exactly when no entry is with a client or waits for the kernel *)
Theorem C92_teardown : forall k k0 os xs b, 0 <= k <= 31 -> legals (start (Z.to_nat (2 ^ k))) os xs b -> teardown (snd (run (setup (2 ^ k) k0) os)) = true <-> held b = [] /\ queue b = [].
Proof.
  intros k k0 os xs b K L. destruct (simulates_all k K os _ _ _ _ (sim_start k K k0) L) as [_ S1]. pose proof (s_count k K _ _ S1) as C. cbv zeta in C.
  unfold teardown. rewrite (s_fl _ _ _ S1), (s_nm _ _ _ S1), Z.eqb_eq. split.
  - intros E. split; [destruct (held b)|destruct (queue b)]; auto; cbn [length] in C; lia.
  - intros [E1 E2]. rewrite E1, E2 in C. cbn [length] in C. lia.
Qed.
Print Assumptions C92_teardown.
Example C92_ex : fst (run (setup 4 (fun _ => 9)) [Alloc 3; Submit [2; 0]; Enter (Some 1%nat); Alloc 2; Submit [1; 3; 2]; Enter (Some 4%nat); Alloc 4; Alloc 1; Enter None]) =
  [Got [0; 1; 2]; Done; Seen [2]; Got [3; 2]; Done; Seen [0; 1; 3; 2]; Got [0; 1; 3; 2]; Full; Seen []].
Proof. vm_compute; reflexivity. Qed.
(** counters about to wrap around *)
Example C92_wrap_ex : let r := R 4 (2 ^ 32 - 2) (2 ^ 32 - 2) (2 ^ 32 - 2) (2 ^ 32 - 2) 2 0 (fun _ => 9) (fun i => i) in
  fst (run r [Alloc 3; Submit [2; 3; 0]; Enter (Some 3%nat); Alloc 4]) = [Got [2; 3; 0]; Done; Seen [2; 3; 0]; Got [1; 2; 3; 0]].
Proof. vm_compute; reflexivity. Qed.
(** A release that nobody else disturbs is the one above *)
Theorem C92_alone : forall r ps p n, nth_error ps p = Some Idle -> exists l xs s, fsteps (r, ps) (Sys p n :: l) = Some (xs, s) /\ Forall (fun a => a = Go p) l /\
  hd Full xs = Seen (fst (enter r (Some n))) /\ nth_error (snd s) p = Some Idle /\ fst s = snd (enter r (Some n)).
Proof.
  assert (NP : forall (ps : list pc) p x y, nth_error ps p = Some y -> nth_error (put p x ps) p = Some x) by (induction ps; intros [|p] x y H; cbn in *; try discriminate; eauto).
  intros r ps p n H. set (r1 := R (nm r) (w32 (kh r + Z.of_nat n)) (kt r) (rel r) (fh r) (ft r) (w32 (ts r - Z.of_nat n)) (karr r) (farr r)).
  cbn [enter fst snd]. fold r1. unfold release.
  destruct (w32 (kh r1 - rel r1) =? 0) eqn:E.
  - exists [Go p; Go p; Go p]. cbn [fsteps fstep]. rewrite H. fold r1. cbn [fstep]. rewrite (NP _ _ _ _ H). cbn [fstep]. rewrite (NP _ _ _ _ (NP _ _ _ _ H)). cbn [fstep]. rewrite (NP _ _ _ _ (NP _ _ _ _ (NP _ _ _ _ H))). rewrite E.
    do 2 eexists. split; [reflexivity|]. split; [repeat constructor|]. cbn [hd fst snd]. split; [reflexivity|]. split; [do 4 eapply NP; exact H|reflexivity].
  - exists [Go p; Go p; Go p; Go p; Go p]. cbn [fsteps fstep]. rewrite H. fold r1. cbn [fstep]. rewrite (NP _ _ _ _ H). cbn [fstep]. rewrite (NP _ _ _ _ (NP _ _ _ _ H)). cbn [fstep]. rewrite (NP _ _ _ _ (NP _ _ _ _ (NP _ _ _ _ H))). rewrite E.
    cbn [fstep]. rewrite (NP _ _ _ _ (NP _ _ _ _ (NP _ _ _ _ (NP _ _ _ _ H)))). cbn [fstep]. rewrite (NP _ _ _ _ (NP _ _ _ _ (NP _ _ _ _ (NP _ _ _ _ (NP _ _ _ _ H))))).
    do 2 eexists. split; [reflexivity|]. split; [repeat constructor|]. cbn [hd fst snd]. split; [reflexivity|]. split; [do 6 eapply NP; exact H|reflexivity].
Qed.
Print Assumptions C92_alone.
(** but when a processor helps another one to submit, two processors release at the same time: entries get into the free ring twice, and the next allocations have an entry in common, though the kernel has taken each entry once *)
Theorem C92_helper_refuted : exists acts xs s,
  fsteps (setup 4 (fun i => i), [Idle; Idle]) ([Owner (Alloc 3); Owner (Submit [0; 1; 2]); Sys 0 3; Sys 1 0; Go 1; Go 1; Go 0; Go 0; Go 0; Go 0; Go 0] ++ acts) = Some (xs, s) /\
  seen xs = [0; 1; 2] /\ snd s = [Idle; Idle] /\ exists l l' r1 r2, alloc (fst s) 3 = Some (l, r1) /\ alloc r1 3 = Some (l', r2) /\ In 0 l /\ In 0 l' /\ ~ In 3 (l ++ l').
Proof.
  exists [Go 1; Go 1; Go 1]. do 2 eexists. split; [vm_compute; reflexivity|]. split; [vm_compute; reflexivity|]. split; [vm_compute; reflexivity|].
  do 4 eexists. split; [vm_compute; reflexivity|]. split; [vm_compute; reflexivity|]. vm_compute. split; [tauto|]. split; [tauto|]. intuition discriminate.
Qed.
Print Assumptions C92_helper_refuted.
