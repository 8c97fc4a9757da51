(** C25, C26: the counting semaphore. *)
From Coq Require Import ZArith List Bool Arith Lia.
From Verif.Semaphore Require Import Model Spec Proofs.
Import ListNotations.
Open Scope Z_scope.

(** C25: every history of P, try_P, V and atomic block-and-release by any threads on any number of semaphores, created
    with non-negative counts, returns and wakes exactly what the permit/FIFO specification does. *)
Theorem C25_refines_permits_fifo_partial : forall (c : nat -> Z) (os : list (tid * op)), (forall i, 0 <= c i) ->
  snd (run (init c) os) = snd (arun (fun i => A (Z.to_nat (c i)) []) os).
Proof. exact (fun c os H => proj2 (run_rel os _ _ (init_rel c H))). Qed.
Print Assumptions C25_refines_permits_fifo_partial.
(** Acquisitions completed never exceed the initial count plus the releases; exactly as many as that minus what is free. *)
Theorem C25_permits_conserved_partial : forall (c : nat -> Z) os i, (forall j, 0 <= c j) ->
  let w := fst (run (init c) os) in let xs := snd (run (init c) os) in
  Z.of_nat (completed i os xs) <= c i + Z.of_nat (released i os) /\
  (waiting (w i) <> [] -> Z.of_nat (completed i os xs) = c i + Z.of_nat (released i os)).
Proof.
  intros c os i H w xs. destruct (run_ledger c os i H) as (_ & L & P & _ & Q). fold w in L, P, Q. fold xs in L.
  split; [lia|]. intros G. specialize (Q G). lia.
Qed.
Print Assumptions C25_permits_conserved_partial.
(** Blocked threads are released in arrival order, and the counter tells how many are blocked. *)
Theorem C25_fifo_partial : forall (c : nat -> Z) os i, (forall j, 0 <= c j) ->
  let w := fst (run (init c) os) in let xs := snd (run (init c) os) in
  blocked_log i os xs = woken_log i os xs ++ waiting (w i) /\
  (waiting (w i) <> [] <-> count (w i) < 0) /\ (waiting (w i) <> [] -> count (w i) = - Z.of_nat (length (waiting (w i)))).
Proof.
  intros c os i H w xs. destruct (run_ledger c os i H) as (F & _ & _ & B & Q). exact (conj F (conj B Q)).
Qed.
Print Assumptions C25_fifo_partial.
(** The full statement, for a negative initial count (the constructor takes a signed count): false, a thread that
    blocks is released by the first V. *)
Theorem C25_negative_count_refuted : exists (c : nat -> Z) os i,
  let xs := snd (run (init c) os) in c i + Z.of_nat (released i os) < 0 /\ completed i os xs = 1%nat.
Proof. exists (fun _ => -2), [(0%nat, OP 0); (1%nat, OV 0)], 0%nat. vm_compute. auto. Qed.
Print Assumptions C25_negative_count_refuted.
(** Likewise the [empty] query (commented "empty waiting queue") says whether the count is 0. *)
Theorem C25_empty_refuted : exists (s s' : sem), waiting s = [] /\ empty s = false /\
  s = fst (P 0%nat (S_ 2 [])) /\ s' = fst (P 0%nat (S_ 1 [])) /\ empty s' = true.
Proof. exists (S_ 1 []), (S_ 0 []). vm_compute. auto 10. Qed.
Print Assumptions C25_empty_refuted.
Example C25_example : let os := [(1%nat, OP 0); (2%nat, OP 0); (3%nat, OP 0); (4%nat, OTryP 0); (1%nat, OP2 1 0); (1%nat, OV 0); (5%nat, OP2 0 0)] in
  snd (run (init (fun i => if Nat.eqb i 0 then 1 else 0)) os) =
    [(true, []); (false, []); (false, []); (false, []); (false, [2%nat]); (true, [3%nat]); (true, [])]
  /\ completed 0 os (snd (run (init (fun i => if Nat.eqb i 0 then 1 else 0)) os)) = 4%nat /\ released 0 os = 3%nat.
Proof. vm_compute. auto. Qed.

(** C26, full statement: V( sem, n ) has the effect of n single releases.  Proved when the count is not positive and
    n is at least the number of blocked threads. *)
Theorem C26_bulk_release_partial : forall s n, count s = - Z.of_nat (length (waiting s)) ->
  Z.of_nat (length (waiting s)) <= n < 2 ^ 64 ->
  Vn s n = (fst (V_times (Z.to_nat n) s), n, snd (V_times (Z.to_nat n) s)).
Proof. exact Vn_ok. Qed.
Print Assumptions C26_bulk_release_partial.
(** In every case the count grows by n. *)
Theorem C26_bulk_count : forall s n, count (fst (fst (Vn s n))) = count s + n.
Proof. reflexivity. Qed.
Print Assumptions C26_bulk_count.
(** Otherwise false: with three threads blocked, releasing one permit wakes all three... *)
Theorem C26_bulk_release_refuted : exists s n, count s = - Z.of_nat (length (waiting s)) /\ 0 < n /\
  snd (Vn s n) = [1; 2; 3]%nat /\ snd (V_times (Z.to_nat n) s) = [1]%nat.
Proof. exists (S_ (-3) [1; 2; 3]%nat), 1. vm_compute. auto. Qed.
Print Assumptions C26_bulk_release_refuted.
(** ... and with a positive count the number of loop iterations (and the result) is almost 2^64. *)
Theorem C26_positive_count_refuted : forall c n, 0 < c < 2 ^ 63 -> 0 <= n < 2 ^ 62 -> snd (fst (Vn (S_ c []) n)) = 2 ^ 64 - c.
Proof.
  intros c n H1 H2. unfold Vn. cbn [count fst snd]. rewrite <- (Z.mod_unique (- c) (2 ^ 64) (-1) (2 ^ 64 - c)) by lia. lia.
Qed.
Print Assumptions C26_positive_count_refuted.
Example C26_example : count (S_ (-2) [7; 8]%nat) = - Z.of_nat (length [7; 8]%nat) /\ Vn (S_ (-2) [7; 8]%nat) 5 = (S_ 3 [], 5, [7; 8]%nat).
Proof. vm_compute. auto. Qed.
