(* C85: the message queues of the actor system, and how they are divided. *)

From Coq Require Import List Arith Bool Lia.
From Verif.ActorQueue Require Import Model Spec Proofs.
Import ListNotations.

(* Any number of requests go through the queue in order, and none outside its
   buffer, as long as it is emptied once something was taken. *)
Theorem C85_fifo : forall n ops l xs, 1 <= n -> fifo [] false ops = Some (l, xs) ->
  exists c, runs (cq_new n) ops = Some (c, xs) /\ count c = length l.
Proof.
  intros n ops l xs N F. destruct (runs_ok ops _ _ _ _ _ (new_holds n N) F) as (c & d & R & H & _). exists c. split; [exact R|apply H].
Qed.
Print Assumptions C85_fifo.

(* The test for emptiness is right. *)
Theorem C85_empty : forall n ops l xs c, 1 <= n -> fifo [] false ops = Some (l, xs) -> runs (cq_new n) ops = Some (c, xs) ->
  cq_empty c = true <-> l = [].
Proof.
  intros n ops l xs c N F E. destruct (runs_ok ops _ _ _ _ _ (new_holds n N) F) as (c' & d & R & H & _). rewrite R in E. injection E as <-.
  rewrite (empty_holds _ _ _ H). destruct l; split; congruence.
Qed.
Print Assumptions C85_empty.

(* The buffer is never larger than at first or twice the most it had to hold. *)
Theorem C85_space : forall n ops l xs c, 1 <= n -> fifo [] false ops = Some (l, xs) -> runs (cq_new n) ops = Some (c, xs) ->
  length l <= bsize c <= max n (2 * peak 0 ops).
Proof.
  intros n ops l xs c N F E. destruct (runs_ok ops _ _ _ _ _ (new_holds n N) F) as (c' & d & R & H & B). rewrite R in E. injection E as <-.
  split; [destruct H; lia|exact B].
Qed.
Print Assumptions C85_space.

(* If the initial size is 0, the first insertion writes outside the buffer. *)
Theorem C85_size_zero_refuted : ~ forall n ops l xs, fifo [] false ops = Some (l, xs) -> exists c, runs (cq_new n) ops = Some (c, xs).
Proof. intros H. destruct (H 0 [OInsert (R 0 0)] _ _ eq_refl) as (c & E). discriminate. Qed.
Print Assumptions C85_size_zero_refuted.

(* Insertion while some are taken and some not overwrites a request, and then
   something is taken that was never written. *)
Theorem C85_discipline_refuted : ~ forall n ops, 1 <= n -> exists c xs, runs (cq_new n) ops = Some (c, xs).
Proof.
  intros H. destruct (H 4 [OInsert (R 0 0); OInsert (R 0 1); ORemove; OInsert (R 0 2); ORemove; ORemove]) as (c & xs & E); [lia|].
  vm_compute in E. discriminate.
Qed.
Print Assumptions C85_discipline_refuted.

Example C85_fifo_ex : let a := R 1 10 in let b := R 2 20 in let c := R 1 30 in
  fifo [] false [OInsert a; OInsert b; OInsert c; OMark; ORemove; ORemove; ORemove; OReclaim; OInsert b; ORemove; ORemove]
    = Some ([], [None; None; None; None; Some a; Some b; Some c; None; None; Some b; None]) /\
  runs (cq_new 1) [OInsert a; OInsert b; OInsert c; OMark; ORemove; ORemove; ORemove; OReclaim; OInsert b; ORemove; ORemove]
    = Some (CQ [Some b; Some b; Some c; None] 0 4 0 0 2, [None; None; None; None; Some a; Some b; Some c; None; None; Some b; None]).
Proof. vm_compute. auto. Qed.

(* Every queue is in the part of exactly one worker, every worker has one, and
   they differ by one at most. *)
Theorem C85_parts : forall nw nq, 1 <= nw -> nw <= nq ->
  (forall k, k < nq <-> exists w, w < nw /\ start nw nq w <= k < start nw nq w + range nw nq w) /\
  (forall k w w', start nw nq w <= k < start nw nq w + range nw nq w -> start nw nq w' <= k < start nw nq w' + range nw nq w' -> w = w') /\
  (forall w, 1 <= range nw nq w) /\ (forall w w', range nw nq w <= range nw nq w' + 1).
Proof.
  intros nw nq W Q. split; [|split; [|split]].
  - intros k. split; [apply part_exists; exact W|]. intros (w & L & H). pose proof (part_bound nw nq w W L). lia.
  - apply part_unique.
  - intros w. apply range_pos; assumption.
  - intros w w'. unfold range. destruct (w <? nq mod nw), (w' <? nq mod nw); lia.
Qed.
Print Assumptions C85_parts.

(* The thief computes its victim's part as the executor did. *)
Theorem C85_victim_part : forall nw nq v, 1 <= nw -> v < nw -> vic_start nw nq v = start nw nq v /\ vic_range nw nq v = range nw nq v.
Proof. intros nw nq v W L. split; [symmetry; apply start_eq; lia|symmetry; apply range_eq]. Qed.
Print Assumptions C85_victim_part.

Example C85_parts_ex : map (start 3 11) [0; 1; 2] = [0; 4; 8] /\ map (range 3 11) [0; 1; 2] = [4; 4; 3] /\ map (vic_start 3 11) [0; 1; 2] = [0; 4; 8].
Proof. vm_compute. auto. Qed.
