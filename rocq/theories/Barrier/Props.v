(** C35: the barrier. *)
From Coq Require Import ZArith List Arith Lia.
From Verif.Barrier Require Import Model Spec Proofs.
Import ListNotations.
Open Scope Z_scope.

(** For every group size n and every sequence of arrivals (any threads, any number of rounds): the (k+1)-th arrival
    releases nobody unless it completes a group, and then exactly that group, with the specified numbers; the callback
    runs exactly then. *)
Theorem C35_releases_whole_groups : forall n (ts : list nat), (0 < n)%nat -> Z.of_nat n < 2 ^ 63 ->
  snd (run (init (Z.of_nat n)) ts) = map (fun k => (released n ts k, Nat.eqb ((k + 1) mod n) 0)) (seq 0 (length ts)).
Proof.
  intros n ts Hn Hb. rewrite <- (at_0 n ts Hn). change ts with (skipn 0 ts) at 1.
  rewrite (run_at n ts Hn) with (m := length ts); [auto|lia|lia].
Qed.
Print Assumptions C35_releases_whole_groups.
(** After complete groups the barrier is back in its initial state; in between, [waiters] counts the waiting threads. *)
Theorem C35_reusable : forall n (ts : list nat), (0 < n)%nat -> Z.of_nat n < 2 ^ 63 ->
  let b := fst (run (init (Z.of_nat n)) ts) in
  length (waiting b) = (length ts mod n)%nat /\ waiters b = Z.of_nat (length ts mod n) /\
  ((length ts mod n = 0)%nat -> b = init (Z.of_nat n)).
Proof.
  intros n ts Hn Hb b. assert (b = at_ n ts (length ts)) as ->.
  { unfold b. rewrite <- (at_0 n ts Hn). change ts with (skipn 0 ts) at 2. rewrite (run_at n ts Hn) with (m := length ts); [auto|lia|lia]. }
  pose proof (Nat.mod_upper_bound (length ts) n ltac:(lia)).
  unfold at_, waiters. cbn [waiting group arrivals]. rewrite map_length, seq_length. split; auto. split.
  - rewrite Z.mod_small; lia.
  - intros ->. cbn. rewrite Nat.sub_0_r. auto.
Qed.
Print Assumptions C35_reusable.
Example C35_example : snd (run (init 3) [7; 8; 9; 8; 7; 9; 5]%nat) =
  [([], false); ([], false); ([(7%nat, 2); (8%nat, 1); (9%nat, 0)], true); ([], false); ([], false); ([(8%nat, 2); (7%nat, 1); (9%nat, 0)], true); ([], false)]
  /\ released 3 [7; 8; 9]%nat 2 = [(7%nat, 2); (8%nat, 1); (9%nat, 0)].
Proof. vm_compute. auto. Qed.
