(** C13, C14: the growable vector. *)
From Coq Require Import ZArith List Bool Lia.
From Verif.Vector Require Import Spec Model Proofs.
Import ListNotations.
Open Scope Z_scope.
(** Any history whose sizes in bytes fit in size_t runs without touching storage outside the block and gives the results of the sequence. *)
Theorem C13_refines sz os ys rs : 0 < sz -> fit_run sz [] os ys rs -> exists v, execs sz new os = Some (v, rs) /\ size v = Z.of_nat (length ys) /\ size v <= cap v /\
  (forall i, (i < length ys)%nat -> rd v (Z.of_nat i) = nth_error ys i).
Proof.
  intros S R. destruct (runs_rep sz S os [] ys rs new R (new_rep sz)) as (v & A & B). exists v. split; auto. pose proof (Proofs.rs sz v ys B). pose proof (rc sz v ys B). pose proof (rl sz v ys B).
  split; auto. split; [lia|]. intros i I. now apply rd_ok with sz.
Qed.
Print Assumptions C13_refines.
(** The capacity covers the block exactly, so every index below it is inside. *)
Theorem C13_capacity sz os ys rs v : 0 < sz -> fit_run sz [] os ys rs -> execs sz new os = Some (v, rs) -> cap v = Z.of_nat (length (blk v)) /\ Z.of_nat (length ys) <= cap v.
Proof.
  intros S R E. destruct (runs_rep sz S os [] ys rs new R (new_rep sz)) as (v' & A & B). assert (v' = v) as -> by congruence. pose proof (Proofs.rc sz v ys B). pose proof (rl sz v ys B). split; auto. lia.
Qed.
Print Assumptions C13_capacity.
(** Doubling is not checked: reserving 2^63 elements makes the capacity 0 and loses the contents, although the history is a legal one. *)
Theorem C13_reserve_refuted : exists os ys rs, runs [] os ys rs /\ ys = [7] /\ execs 8 new (os ++ [At 0]) = None /\ match execs 8 new os with Some (v, _) => cap v < size v | None => False end.
Proof.
  exists [Push 7; Reserve (2 ^ 63)], [7], [RVoid; RVoid]. split; [|split; [reflexivity|split; [reflexivity|reflexivity]]].
  eapply runs_cons; [apply s_push|]. eapply runs_cons; [apply s_res|]. apply runs_nil.
Qed.
Print Assumptions C13_reserve_refuted.
(** Nor is the product with sizeof(T): the capacity then claims more elements than the block has, and a push goes outside it. *)
Theorem C13_bytes_refuted : exists os ys rs, runs [] os ys rs /\ (exists r, execs 8 new os = r /\ r <> None /\ match r with Some (v, _) => Z.of_nat (length (blk v)) < cap v | None => False end) /\ execs 8 new (os ++ [Push 7]) = None.
Proof.
  exists [Reserve (2 ^ 60)], [], [RVoid]. split; [eapply runs_cons; [apply s_res|apply runs_nil]|]. split; [|reflexivity].
  eexists. split; [reflexivity|]. split; [discriminate|reflexivity].
Qed.
Print Assumptions C13_bytes_refuted.
Example C13_ex : execs 4 new [Push 1; Push 2; Push 3; Set_ 1 9; Back; Pop; At 1; Reserve 50; Push 4; Front; Size] =
  Some (V ([Val 1; Val 9; Val 4] ++ repeat Raw 97) 100 3, [RVoid; RVoid; RVoid; RVoid; RVal 3; RVoid; RVal 9; RVoid; RVoid; RVal 1; RNum 3]).
Proof. reflexivity. Qed.

(** C14. What clear destroys: the index size, as many times as there are elements, and never an element below it. *)
Theorem C14_clear_actual v i : 0 <= size v -> (In i (clear_indices v) <-> 0 < size v /\ i = size v) /\ length (clear_indices v) = Z.to_nat (size v).
Proof.
  intro H. unfold clear_indices. split; [|now rewrite map_length, seq_length]. rewrite in_map_iff. split.
  - intros (k & E & I). apply in_seq in I. lia.
  - intros [P ->]. exists 0%nat. split; auto. apply in_seq. lia.
Qed.
Print Assumptions C14_clear_actual.
Theorem C14_clear_refuted : exists os v rs, execs 8 new os = Some (v, rs) /\ runs [] os [1; 2] rs /\ clear v = None /\ forall i, 0 <= i < size v -> ~ In i (clear_indices v).
Proof.
  eexists [Push 1; Push 2], _, _. split; [reflexivity|]. split; [eapply runs_cons; [apply s_push|]; eapply runs_cons; [apply s_push|apply runs_nil]|]. split; [reflexivity|].
  intros i H I. apply C14_clear_actual in I; lia.
Qed.
Print Assumptions C14_clear_refuted.
(** Clearing or copying an empty vector touches nothing. *)
Theorem C14_empty v : size v = 0 -> clear v = Some (V (blk v) (cap v) 0) /\ copy_indices v = [].
Proof. intro E. unfold clear, clear_indices, copy_indices. rewrite E. split; reflexivity. Qed.
Print Assumptions C14_empty.
(** Copying reads and writes only the index size, which is past the elements. *)
Theorem C14_copy_actual v i j : 0 <= size v -> In (i, j) (copy_indices v) -> i = size v /\ j = size v.
Proof. intros H I. unfold copy_indices in I. apply in_map_iff in I as (k & E & _). now injection E as <- <-. Qed.
Print Assumptions C14_copy_actual.
Theorem C14_copy_refuted : exists os v rs, execs 8 new os = Some (v, rs) /\ runs [] os [1; 2] rs /\ copy 8 v = None /\ forall i j, In (i, j) (copy_indices v) -> ~ 0 <= j < size v.
Proof.
  eexists [Push 1; Push 2], _, _. split; [reflexivity|]. split; [eapply runs_cons; [apply s_push|]; eapply runs_cons; [apply s_push|apply runs_nil]|]. split; [reflexivity|].
  intros i j I H. apply C14_copy_actual in I; lia.
Qed.
Print Assumptions C14_copy_refuted.
Example C14_ex : clear_indices (V (map Val [5; 6; 7]) 3 3) = [3; 3; 3] /\ copy_indices (V (map Val [5; 6; 7]) 3 3) = [(3, 3); (3, 3); (3, 3)]. Proof. split; reflexivity. Qed.
