From Coq Require Import List Arith Bool Lia ZifyBool.
From Verif.ActorQueue Require Import Model Spec.
Import ListNotations.

Lemma put_length : forall A (l : list A) n x, length (put l n x) = length l.
Proof. induction l; destruct n; cbn [put length]; auto. Qed.

Lemma put_same : forall A (l : list A) n x, n < length l -> nth_error (put l n x) n = Some x.
Proof. induction l as [|a l IH]; destruct n; cbn [put length nth_error]; intros; try lia; auto. apply IH. lia. Qed.

Lemma put_other : forall A (l : list A) n m x, n <> m -> nth_error (put l n x) m = nth_error l m.
Proof. induction l as [|a l IH]; destruct n, m; cbn [put nth_error]; intros; try congruence; auto. Qed.

Lemma resize_length : forall n b, length (resize n b) = n.
Proof. intros. unfold resize. rewrite firstn_length, app_length, repeat_length. lia. Qed.

Lemma resize_nth : forall n b i, i < n -> i < length b -> nth_error (resize n b) i = nth_error b i.
Proof.
  intros n b i H1 H2. unfold resize. rewrite <- (nth_error_app1 b (repeat None n) H2).
  generalize (b ++ repeat None n). clear H2. revert i H1. induction n as [|n IH]; intros i H [|x l]; try lia; [destruct i; reflexivity|].
  destruct i; [reflexivity|]. cbn [firstn nth_error]. apply IH. lia.
Qed.

(* c holds l; elements were taken from it if d *)
Record holds (c : cq) (l : list req) (d : bool) : Prop := {
  h_len : bsize c = length (buf c);
  h_pos : 1 <= bsize c;
  h_cnt : count c = length l;
  h_idx : d = false \/ l = [] -> index c = 0;
  h_fit : index c + count c <= bsize c;
  h_val : forall i, i < length l -> nth_error (buf c) (index c + i) = option_map Some (nth_error l i)
}.

Lemma new_holds : forall n, 1 <= n -> holds (cq_new n) [] false.
Proof. intros n H. constructor; cbn; auto; try lia. rewrite repeat_length. reflexivity. Qed.

Lemma insert_holds : forall c l r, holds c l false -> exists c', cq_insert c r = Some c' /\ holds c' (l ++ [r]) false /\ bsize c' <= max (bsize c) (2 * length l).
Proof.
  intros c l r []. specialize (h_idx0 (or_introl eq_refl)). unfold cq_insert.
  set (c1 := if bsize c <=? count c then _ else c).
  assert (X : length (buf c1) = bsize c1 /\ count c1 = count c /\ index c1 = 0 /\ count c < bsize c1 /\ bsize c1 <= max (bsize c) (2 * length l) /\
              forall i, i < length l -> nth_error (buf c1) i = option_map Some (nth_error l i)).
  { unfold c1. destruct (Nat.leb_spec (bsize c) (count c)); cbn [buf count index bsize].
    - rewrite resize_length. repeat split; try lia. intros i Hi. rewrite resize_nth by lia. rewrite <- (h_val0 i Hi), h_idx0. reflexivity.
    - repeat split; try lia. intros i Hi. rewrite <- (h_val0 i Hi), h_idx0. reflexivity. }
  destruct X as (L & C & I & B & S1 & V). clearbody c1. destruct (Nat.ltb_spec (count c1) (length (buf c1))); [|lia].
  eexists. split; [reflexivity|]. split; [|exact S1]. constructor; cbn [buf count index bsize]; rewrite ?put_length, ?app_length; cbn [length]; try lia.
  intros i Hi. rewrite I, Nat.add_0_l. destruct (Nat.eq_dec i (length l)) as [->|].
  - replace (length l) with (count c1) at 1 by lia. rewrite put_same by lia. rewrite nth_error_app2, Nat.sub_diag by lia. reflexivity.
  - rewrite put_other by lia. rewrite V by lia. rewrite nth_error_app1 by lia. reflexivity.
Qed.

Lemma remove_holds : forall c x l d, holds c (x :: l) d ->
  exists c', cq_remove c = Got x c' /\ holds c' l (match l with [] => false | _ => true end) /\ bsize c' = bsize c.
Proof.
  intros c x l d []. cbn [length] in *. unfold cq_remove. rewrite h_cnt0.
  pose proof (h_val0 0 ltac:(lia)) as V. rewrite Nat.add_0_r in V. cbn in V. rewrite V.
  eexists. split; [reflexivity|]. split; [|reflexivity]. constructor; cbn [buf count index bsize]; auto; try lia.
  - destruct l; [reflexivity|intros []; discriminate].
  - destruct (Nat.eqb_spec (length l) 0); lia.
  - intros i Hi. destruct (Nat.eqb_spec (length l) 0); [lia|]. pose proof (h_val0 (S i) ltac:(lia)) as V'. cbn [nth_error] in V'. rewrite <- V'. f_equal. lia.
Qed.

Lemma remove_nothing : forall c d, holds c [] d -> cq_remove c = Nothing.
Proof. intros c d []. unfold cq_remove. rewrite h_cnt0. reflexivity. Qed.

Lemma reclaim_holds : forall c, holds c [] false -> holds (cq_reclaim c) [] false /\ bsize (cq_reclaim c) <= bsize c.
Proof.
  intros c []. unfold cq_reclaim. destruct (Nat.leb_spec (last c) (utilized c)); cbn [orb]; [split; [constructor; cbn [buf count index bsize]; auto; cbn; lia|cbn; lia]|].
  destruct (Nat.leb_spec (bsize c) 4); (split; [constructor; cbn [buf count index bsize]; rewrite ?resize_length; auto; cbn [length] in *; try lia|cbn; lia]).
Qed.

Lemma mark_holds : forall c l d, holds c l d -> holds (cq_mark c) l d.
Proof. intros c l d []. constructor; auto. Qed.

Lemma empty_holds : forall c l d, holds c l d -> cq_empty c = match l with [] => true | _ => false end.
Proof. intros c l d []. unfold cq_empty. rewrite h_cnt0. destruct l; reflexivity. Qed.

Lemma holds_done : forall c d, holds c [] d -> holds c [] false.
Proof. intros c d []. constructor; auto. Qed.

Lemma peak_ge : forall ops n, n <= peak n ops.
Proof. induction ops as [|[r| | |] ops IH]; intros n; cbn [peak]; try lia; apply IH. Qed.

Lemma runs_ok : forall ops c l d l' xs, holds c l d -> fifo l d ops = Some (l', xs) ->
  exists c' d', runs c ops = Some (c', xs) /\ holds c' l' d' /\ bsize c' <= max (bsize c) (2 * peak (length l) ops).
Proof.
  induction ops as [|o ops IH]; intros c l d l' xs H F; cbn [fifo] in F.
  - injection F as <- <-. exists c, d. split; [reflexivity|]. split; [exact H|lia].
  - cbn [runs]. destruct o as [r| | |]; cbn [run1].
    + destruct d; [discriminate|]. destruct (fifo (l ++ [r]) false ops) as [[l1 ys]|] eqn:E; [|discriminate]. injection F as <- <-.
      destruct (insert_holds c l r H) as (c1 & -> & H1 & B). destruct (IH _ _ _ _ _ H1 E) as (c' & d' & -> & H2 & B2). exists c', d'. split; [reflexivity|]. split; [exact H2|].
      cbn [peak]. rewrite app_length in B2. cbn [length] in B2. replace (length l + 1) with (S (length l)) in B2 by lia.
      pose proof (peak_ge ops (S (length l))). lia.
    + destruct l as [|x l].
      * destruct (fifo [] false ops) as [[l1 ys]|] eqn:E; [|discriminate]. injection F as <- <-. rewrite (remove_nothing _ _ H).
        pose proof (holds_done _ _ H) as H0.
        destruct (IH _ _ _ _ _ H0 E) as (c' & d' & -> & H2 & B2). exists c', d'. split; [reflexivity|]. split; [exact H2|]. cbn [peak]. cbn [length] in *. replace (0 - 1) with 0 by lia. lia.
      * destruct (fifo l _ ops) as [[l1 ys]|] eqn:E; [|discriminate]. injection F as <- <-.
        destruct (remove_holds _ _ _ _ H) as (c1 & -> & H1 & B). destruct (IH _ _ _ _ _ H1 E) as (c' & d' & -> & H2 & B2). exists c', d'. split; [reflexivity|]. split; [exact H2|].
        cbn [peak length]. replace (S (length l) - 1) with (length l) by lia. lia.
    + destruct l as [|x l]; [|discriminate]. destruct (fifo [] false ops) as [[l1 ys]|] eqn:E; [|discriminate]. injection F as <- <-.
      destruct (reclaim_holds c (holds_done _ _ H)) as [H1 B]. destruct (IH _ _ _ _ _ H1 E) as (c' & d' & -> & H2 & B2). exists c', d'. split; [reflexivity|]. split; [exact H2|]. cbn [peak length] in *. lia.
    + destruct (fifo l d ops) as [[l1 ys]|] eqn:E; [|discriminate]. injection F as <- <-.
      destruct (IH _ _ _ _ _ (mark_holds _ _ _ H) E) as (c' & d' & -> & H2 & B2). exists c', d'. split; [reflexivity|]. split; [exact H2|]. cbn [peak]. exact B2.
Qed.

(* -- parts -- *)

Lemma start_eq : forall nw nq i, 1 <= nw -> i <= nw -> start nw nq i = vic_start nw nq i.
Proof.
  intros nw nq i W. induction i as [|i IH]; intros H.
  - unfold vic_start. cbn [start]. destruct (0 <? nq mod nw) eqn:E; lia.
  - cbn [start]. rewrite IH by lia. unfold vic_start, range. set (e := nq mod nw). set (k := nq / nw).
    destruct (Nat.ltb_spec i e), (Nat.ltb_spec (S i) e); nia.
Qed.

Lemma range_eq : forall nw nq i, range nw nq i = vic_range nw nq i.
Proof. intros. unfold range, vic_range. destruct (i <? nq mod nw); lia. Qed.

Lemma start_all : forall nw nq, 1 <= nw -> start nw nq nw = nq.
Proof.
  intros nw nq W. rewrite start_eq by lia. unfold vic_start. pose proof (Nat.mod_upper_bound nq nw ltac:(lia)).
  destruct (Nat.ltb_spec nw (nq mod nw)); [lia|]. pose proof (Nat.div_mod nq nw ltac:(lia)). nia.
Qed.

Lemma start_mono : forall nw nq i j, i < j -> start nw nq i + range nw nq i <= start nw nq j.
Proof. intros nw nq i j H. induction H; cbn [start]; lia. Qed.

Lemma part_exists : forall nw nq k, 1 <= nw -> k < nq -> exists w, w < nw /\ start nw nq w <= k < start nw nq w + range nw nq w.
Proof.
  intros nw nq k W H. rewrite <- (start_all nw nq W) in H.
  assert (X : forall n, k < start nw nq n -> exists w, w < n /\ start nw nq w <= k < start nw nq w + range nw nq w).
  { induction n as [|n IH]; intros L; [cbn in L; lia|]. cbn [start] in L. destruct (Nat.le_gt_cases (start nw nq n) k); [exists n; lia|].
    destruct IH as (w & A & B); [lia|]. exists w. lia. }
  exact (X nw H).
Qed.

Lemma part_unique : forall nw nq k w w', start nw nq w <= k < start nw nq w + range nw nq w -> start nw nq w' <= k < start nw nq w' + range nw nq w' -> w = w'.
Proof.
  intros nw nq k w w' H H'. destruct (Nat.lt_trichotomy w w') as [L|[->|L]]; [|reflexivity|]; pose proof (start_mono nw nq _ _ L); lia.
Qed.

Lemma range_pos : forall nw nq i, 1 <= nw -> nw <= nq -> 1 <= range nw nq i.
Proof. intros nw nq i W H. unfold range. pose proof (Nat.div_str_pos nq nw ltac:(lia)). lia. Qed.

Lemma part_bound : forall nw nq w, 1 <= nw -> w < nw -> start nw nq w + range nw nq w <= nq.
Proof. intros nw nq w W H. rewrite <- (start_all nw nq W) at 3. apply start_mono. exact H. Qed.
