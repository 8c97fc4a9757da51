From Coq Require Import ZArith List Arith Lia.
From Verif.Barrier Require Import Model Spec.
Import ListNotations.
Open Scope Z_scope.

(** state after k arrivals of ts *)
Definition at_ (n : nat) (ts : list nat) (k : nat) : barrier :=
  let r := (k mod n)%nat in
  B (Z.of_nat n) (Z.of_nat (n - r)) (map (fun i => (nth (k - r + i) ts 0%nat, Z.of_nat (n - 1 - i))) (seq 0 r)).
Lemma mod_succ k n : (0 < n)%nat -> ((k + 1) mod n = if Nat.eqb (k mod n + 1) n then 0 else k mod n + 1)%nat.
Proof.
  intros H. rewrite <- Nat.add_mod_idemp_l by lia. pose proof (Nat.mod_upper_bound k n ltac:(lia)).
  destruct (Nat.eqb_spec (k mod n + 1) n) as [E|E]; [rewrite E, Nat.mod_same; lia|apply Nat.mod_small; lia].
Qed.
Lemma block_at n ts k : (0 < n)%nat -> Z.of_nat n < 2 ^ 64 ->
  block (at_ n ts k) (nth k ts 0%nat) = (at_ n ts (k + 1), released n ts k, Nat.eqb ((k + 1) mod n) 0).
Proof.
  intros Hn Hb. pose proof (Nat.mod_upper_bound k n ltac:(lia)) as Hr. pose proof (Nat.mod_le k n ltac:(lia)) as Hle.
  set (r := (k mod n)%nat) in *.
  assert (dec (arrivals (at_ n ts k)) = Z.of_nat (n - r) - 1) as Ea by (unfold dec, at_; cbn [arrivals]; fold r; rewrite Z.mod_small; lia).
  assert (waiting (at_ n ts k) = map (fun i => (nth (k - r + i) ts 0%nat, Z.of_nat (n - 1 - i))) (seq 0 r)) as Ew by reflexivity.
  unfold block, released. rewrite Ea, Ew. change (group (at_ n ts k)) with (Z.of_nat n). rewrite (mod_succ k n Hn). fold r.
  destruct (Nat.eqb_spec (r + 1) n) as [E|E].
  - destruct (Z.eqb_spec (Z.of_nat (n - r) - 1) 0); [|lia]. rewrite Nat.eqb_refl. unfold at_. rewrite (mod_succ k n Hn). fold r. rewrite (proj2 (Nat.eqb_eq _ _) E).
    cbn [seq map]. rewrite Nat.sub_0_r. f_equal. f_equal. replace (seq 0 n) with (seq 0 (r + 1)) by (rewrite E; auto). rewrite (Nat.add_1_r r), seq_S, map_app. cbn [map].
    f_equal.
    + apply map_ext_in. intros i Hi. apply in_seq in Hi. f_equal. f_equal. lia.
    + f_equal. f_equal; [f_equal; lia|lia].
  - destruct (Z.eqb_spec (Z.of_nat (n - r) - 1) 0); [lia|]. destruct (Nat.eqb_spec (r + 1) 0); [lia|]. unfold at_. rewrite (mod_succ k n Hn). fold r.
    rewrite (proj2 (Nat.eqb_neq _ _) E). rewrite (Nat.add_1_r r), seq_S, map_app. cbn [map]. f_equal. f_equal. f_equal; [lia|]. f_equal.
    + apply map_ext_in. intros i Hi. apply in_seq in Hi. f_equal. f_equal. lia.
    + f_equal. f_equal; [f_equal; lia|lia].
Qed.
Lemma run_at n ts : (0 < n)%nat -> Z.of_nat n < 2 ^ 64 -> forall m k, (k + m = length ts)%nat ->
  run (at_ n ts k) (skipn k ts) = (at_ n ts (length ts), map (fun j => (released n ts j, Nat.eqb ((j + 1) mod n) 0)) (seq k m)).
Proof.
  intros Hn Hb. induction m as [|m IH]; intros k Hk.
  - rewrite skipn_all2 by lia. cbn. f_equal. f_equal. lia.
  - assert (skipn k ts = nth k ts 0%nat :: skipn (k + 1) ts) as ->.
    { clear - Hk. revert k Hk. induction ts as [|t ts IH]; intros k Hk; cbn in Hk; [lia|]. destruct k; [auto|]. cbn. apply IH. cbn in Hk. lia. }
    cbn [run]. rewrite block_at by auto. rewrite IH by lia. cbn [seq map]. rewrite Nat.add_1_r. auto.
Qed.
Lemma at_0 n ts : (0 < n)%nat -> at_ n ts 0 = init (Z.of_nat n).
Proof. intros H. unfold at_, init. rewrite Nat.mod_0_l by lia. cbn. rewrite Nat.sub_0_r. auto. Qed.
