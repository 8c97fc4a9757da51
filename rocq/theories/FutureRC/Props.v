From Coq Require Import List Bool Arith ZArith Lia ZifyBool.
From Verif.FutureRC Require Import Model Spec Proofs.
Import ListNotations.
Open Scope nat_scope.
(** C45. However threads create, copy, assign (also to itself, or among handles of one future) and destroy handles, interleaved at every atomic instruction:
    no reference count or memory of a deleted future is touched (nor deleted again), and what a handle refers to exists. *)
Theorem C45_safe : forall ths s, reach ths s -> fault s = false /\ NoDup (freed s) /\ forall h i, refers s h i -> i < next s /\ ~ In i (freed s).
Proof. intros ths s R. apply reach_inv in R. split; [apply v_ok with ths; auto|]. split; [apply (v_freed _ _ R)|]. intros h i. apply (v_old _ _ R). Qed.
Print Assumptions C45_safe.
(** When no thread is in the middle of an operation, exactly the futures with no handle are deleted: each future is deleted by the time its last handle is gone, and not before. *)
Theorem C45_freed : forall ths s i, reach ths s -> quiet ths s -> i < next s -> (In i (freed s) <-> ~ exists h, refers s h i).
Proof.
  intros ths s i R Q L. apply reach_inv in R. split.
  - intros F [h X]. apply (v_old _ _ R) in X. tauto.
  - intros N. destruct (in_dec Nat.eq_dec i (freed s)) as [X|X]; auto. exfalso. destruct (v_who _ _ R i L X) as [t D].
    + unfold refs. rewrite (proj1 (count_occ_not_In Nat.eq_dec (map snd (hs s)) i)); auto. intros Y. apply in_map_iff in Y. destruct Y as ([h j] & <- & Y). apply N. exists h. exact Y.
    + destruct (in_dec Nat.eq_dec t ths) as [T|T]; [rewrite Q in D by auto|rewrite (v_ths _ _ R) in D by auto]; discriminate.
Qed.
Print Assumptions C45_freed.
(** The count a future keeps is at every moment the number of its handles. *)
Theorem C45_count : forall ths s i, reach ths s -> cnt s i = Z.of_nat (length (filter (fun e => snd e =? i) (hs s))).
Proof.
  intros ths s i R. apply reach_inv in R. rewrite (v_cnt _ _ R). unfold refs. f_equal. induction (hs s) as [|[h j] l IH]; auto. cbn [map snd count_occ filter]. destruct (Nat.eq_dec j i) as [->|N].
  - rewrite Nat.eqb_refl. cbn [length]. auto.
  - rewrite (proj2 (Nat.eqb_neq j i)) by auto. auto.
Qed.
Print Assumptions C45_count.
(** What each operation does to the handles: after a completed assignment both handles refer to the right-hand future; a copy refers to what the original refers to; nobody else's handle changes. *)
Theorem C45_assign : forall ths s t l r s1, reach ths s -> step ths s t (Assign l r) = Some s1 -> at_ s1 t = Rest -> exists i, refers s1 l i /\ refers s1 r i /\ hs s1 = hs s.
Proof.
  intros ths s t l r s1 R H E. pose proof (reach_inv _ _ R) as I. revert H. unfold step. rewrite (v_ok _ _ I). cbn [orb]. destruct (negb _); [discriminate|]. destruct (at_ s t) eqn:ET; try discriminate.
  destruct (used ths s l); [discriminate|]. destruct (lookup s l) as [i|] eqn:L; [|discriminate]. destruct (lookup s r) as [j|] eqn:L2; [|discriminate]. destruct (Nat.eqb_spec i j) as [->|N].
  - intros H. injection H as <-. exists j. split; [apply lookup_some; auto|]. split; [apply lookup_some; auto|auto].
  - unfold add. destruct (allocated _ _); intros H; injection H as <-; unfold goto in E; cbn [at_] in E; rewrite upd_same in E; repeat (destruct (_ =? _)%Z; try discriminate); discriminate.
Qed.
Print Assumptions C45_assign.
Theorem C45_assign_done : forall ths s t l r s1, reach ths s -> at_ s t = AsInc l r -> step ths s t Go = Some s1 ->
  exists i, refers s1 l i /\ refers s1 r i /\ (forall h k, h <> l -> refers s1 h k <-> refers s h k).
Proof.
  intros ths s t l r s1 R E H. pose proof (reach_inv _ _ R) as I. revert H. unfold step. rewrite (v_ok _ _ I). cbn [orb]. destruct (negb _); [discriminate|]. rewrite E.
  destruct (lookup s r) as [j|] eqn:L; [|discriminate]. apply lookup_some in L. unfold add. rewrite (alloc_inv _ _ _ _ I L). intros H. injection H as <-. exists j. unfold refers, goto, with_hs. cbn [hs In]. split; auto. split; auto.
  intros h k N. split; [intros [X|X]; [congruence|auto]|auto].
Qed.
Print Assumptions C45_assign_done.
Theorem C45_copy : forall ths s t h from s1, reach ths s -> step ths s t (Copy h from) = Some s1 -> exists i, refers s1 h i /\ refers s from i /\ forall k j, k <> h -> refers s1 k j <-> refers s k j.
Proof.
  intros ths s t h from s1 R H. pose proof (reach_inv _ _ R) as I. revert H. unfold step. rewrite (v_ok _ _ I). cbn [orb]. destruct (negb _); [discriminate|]. destruct (at_ s t) eqn:ET; try discriminate.
  destruct (exists_ ths s h); [discriminate|]. destruct (lookup s from) as [i|] eqn:L; [|discriminate]. apply lookup_some in L. unfold add. rewrite (alloc_inv _ _ _ _ I L). intros H. injection H as <-. exists i.
  unfold refers, with_hs. cbn [hs In]. split; auto. split; auto. intros k j N. split; [intros [X|X]; [congruence|auto]|auto].
Qed.
Print Assumptions C45_copy.
Theorem C45_destroy : forall ths s t h s1, reach ths s -> step ths s t (Destroy h) = Some s1 -> forall k j, refers s1 k j <-> refers s k j /\ k <> h.
Proof.
  intros ths s t h s1 R H. pose proof (reach_inv _ _ R) as I. revert H. unfold step. rewrite (v_ok _ _ I). cbn [orb]. destruct (negb _); [discriminate|]. destruct (at_ s t) eqn:ET; try discriminate.
  destruct (used ths s h); [discriminate|]. destruct (lookup s h) as [i|] eqn:L; [|discriminate]. apply lookup_some in L. unfold add, allocated. cbn [next freed with_hs]. fold (allocated s i). rewrite (alloc_inv _ _ _ _ I L).
  intros H. injection H as <-. intros k j. unfold refers. destruct (_ =? _)%Z; cbn [hs goto with_hs]; apply in_drop.
Qed.
Print Assumptions C45_destroy.
Definition show (o : option state) : option (list (nat * nat) * nat * list nat * bool) := match o with Some s => Some (hs s, next s, freed s, fault s) | None => None end.
Lemma run_reach : forall ths l s s1, reach ths s -> run ths s l = Some s1 -> reach ths s1.
Proof. intros ths. induction l as [|[t a] l IH]; intros s s1 R H; cbn [run] in H; [congruence|]. destruct (step ths s t a) as [s2|] eqn:E; [|discriminate]. apply (IH s2); auto. econstructor; eauto. Qed.
(** two threads: 10 and 11 share future 0, 12 is future 1; thread 2 assigns 12 to 10 while thread 1 destroys 11: thread 2's assignment drops the first reference, thread 1 the last, so thread 1 deletes *)
Example ex_share : show (run [1; 2] start [(1, New 10); (1, Copy 11 10); (2, New 12); (2, Assign 10 12); (1, Destroy 11); (2, Go); (1, Go)]) = Some ([(10, 1); (12, 1)], 2, [0], false).
Proof. vm_compute. reflexivity. Qed.
Example ex_self : show (run [1] start [(1, New 10); (1, Assign 10 10); (1, Copy 11 10); (1, Assign 11 10); (1, Destroy 10); (1, Destroy 11); (1, Go)]) = Some ([], 1, [0], false).
Proof. vm_compute. reflexivity. Qed.
Example ex_last : show (run [1] start [(1, New 10); (1, New 11); (1, Assign 10 11); (1, Go); (1, Go)]) = Some ([(10, 1); (11, 1)], 2, [0], false).
Proof. vm_compute. reflexivity. Qed.
