(** Mutable strings (C16). *)
From Coq Require Import ZArith List Bool Lia.
From Verif.StringHeap Require Import Model Spec Proofs Ops Steps Assign Hist.
Import ListNotations.
Open Scope Z_scope.

(** Histories of constructions, copies, assignments and destructions: whatever the size of the heap, the threshold at which it is extended and
    the places malloc gives, every string has the value it was given, unless memory runs out *)
Theorem C16_values : forall low place a size m l v, good place -> 0 <= a -> 0 <= size -> a + size <= 2 ^ 64 -> plains none l -> effects none l = Some v ->
  run low place (new_heap a size m) l = NoMem \/ exists h, run low place (new_heap a size m) l = Ok h /\ forall x, text h x = Ok (v x).
Proof.
  intros low place a size m l v G A S L P E. destruct (plains_run low place G l _ none v (new_inv same a size m A S L) P E) as [R|(h & R & [I _])]; auto.
  right. exists h. split; auto. intros x. apply rep_text. auto.
Qed.
Print Assumptions C16_values.
(** Histories that only construct strings, also as parts of other strings *)
Theorem C16_parts : forall low place a size m l v, good place -> 0 <= a -> 0 <= size -> a + size <= 2 ^ 64 -> builds none l -> effects none l = Some v ->
  run low place (new_heap a size m) l = NoMem \/ exists h, run low place (new_heap a size m) l = Ok h /\ forall x, text h x = Ok (v x).
Proof.
  intros low place a size m l v G A S L P E. destruct (builds_run low place G l _ none v (new_inv within a size m A S L) P E) as [R|(h & R & [I _])]; auto.
  right. exists h. split; auto. intros x. apply rep_text. auto.
Qed.
Print Assumptions C16_parts.
(** After either, one more operation of any kind whose argument does not lie in the pool, e.g. appending characters *)
Theorem C16_next : forall low place a size m l o v, good place -> 0 <= a -> 0 <= size -> a + size <= 2 ^ 64 ->
  plains none l \/ builds none l -> outside o -> effects none (l ++ [o]) = Some v -> forall x,
  run low place (new_heap a size m) (l ++ [o]) = NoMem \/ exists h, run low place (new_heap a size m) (l ++ [o]) = Ok h /\ text h x = Ok (v x).
Proof.
  intros low place a size m l o v G A S L P O E x.
  assert (RA : forall l h, run low place h (l ++ [o]) = bind (run low place h l) (fun h1 => step low place h1 o)).
  { induction l0 as [|p q IH]; intros h; cbn [app run bind]; [destruct (step low place h o); auto|]. destruct (step low place h p); cbn [bind]; auto. }
  assert (EA : exists v1, effects none l = Some v1 /\ effect v1 o = Some v).
  { clear -E. revert E. generalize none. induction l as [|p q IH]; intros w E; cbn [app effects] in *; [exists w; destruct (effect w o); auto|].
    destruct (effect w p); [apply IH; auto|discriminate]. }
  destruct EA as (v1 & E1 & E2). rewrite RA. destruct P as [P|P].
  - destruct (plains_run low place G l _ none v1 (new_inv same a size m A S L) P E1) as [R|(h & R & I)]; rewrite R; auto. cbn [bind].
    apply (last_text low place G same h v1); auto. apply same_fine.
  - destruct (builds_run low place G l _ none v1 (new_inv within a size m A S L) P E1) as [R|(h & R & I)]; rewrite R; auto. cbn [bind].
    apply (last_text low place G within h v1); auto. apply within_fine.
Qed.
Print Assumptions C16_next.

(** the default threshold (10% free), and malloc placing areas one after the other *)
Definition tenth (f c : Z) : bool := f * 10 <? c.
Definition upward (h : heap) (n : Z) : option Z := if (0 <=? ext h) && (ext h + 64 + n <=? 2 ^ 64) then Some (ext h + 64) else None.
Lemma upward_good : good upward.
Proof. intros h n a E. unfold upward in E. destruct ((0 <=? ext h) && (ext h + 64 + n <=? 2 ^ 64)) eqn:B; [|discriminate]. injection E as <-. lia. Qed.
(** the heap of 1000 bytes that is the default *)
Definition heap0 : heap := new_heap 4096 1000 (fun _ => 0).
Definition result (l : list op) (x : nat) : res (option (list Z)) := bind (run tenth upward heap0 l) (fun h => text h x).
Definition wanted (l : list op) (x : nat) : option (list Z) := match effects none l with Some v => v x | None => None end.
Definition many (n : nat) (c : Z) : list Z := repeat c n.

Example C16_values_ex :
  let l := [New 1 [1; 2; 3]; New 2 (many 990 9); Copy 3 1 0 3; AssignChars 2 [7]; AssignString 1 2; New 4 (many 400 4); AssignChars 1 [5; 6]; New 5 (many 2000 8); Destroy 4] in
  plains none l /\ map (result l) [1; 2; 3; 4]%nat = [Ok (Some [5; 6]); Ok (Some [7]); Ok (Some [1; 2; 3]); Ok None].
Proof. split; [cbn [plains plain]; repeat (split; [|intros ? E; try (injection E as <-)]); auto; split; auto; cbn; congruence|vm_compute; reflexivity]. Qed.
Example C16_next_ex :
  let l := [New 1 (many 10 1); Copy 2 1 3 4; Copy 3 2 1 2; New 4 (many 3000 7)] in
  builds none l /\ map (result (l ++ [AppendChars 2 [5]])) [1; 2; 3]%nat = [Ok (Some (many 10 1)); Ok (Some [1; 1; 1; 1; 5]); Ok (Some [1; 1])].
Proof. split; [cbn [builds building]; repeat (split; [|intros ? E; try (injection E as <-)]); auto; cbn; intros t T; injection T as <-; cbn; lia|vm_compute; reflexivity]. Qed.

(** Beyond these the claim fails: a string that was given one value by its program later has another, or reading it leaves the heap.
    Appending to a copy of the last string in the pool grows it in place, while compaction keeps only what the first of the two covers *)
Definition shared_append : list op := [New 1 [1; 2; 3; 4; 5]; Copy 2 1 0 5; AppendChars 2 [6; 7]; New 3 (many 980 9); Destroy 3; New 3 (many 20 9)].
Theorem C16_shared_append_refuted : exists low place l x t u, good place /\ effects none l <> None /\ wanted l x = Some t /\
  bind (run low place heap0 l) (fun h => text h x) = Ok (Some u) /\ t <> u.
Proof.
  exists tenth, upward, shared_append, 2%nat, [1; 2; 3; 4; 5; 6; 7], [1; 2; 3; 4; 5; 9; 9]. split; [apply upward_good|].
  split; [vm_compute; congruence|]. split; [vm_compute; reflexivity|]. split; [vm_compute; reflexivity|]. congruence.
Qed.
Print Assumptions C16_shared_append_refuted.
(** Appending to a string that is not the last moves its bytes to the end but not its handle, so compaction takes the strings between for parts of it *)
Definition moved_append : list op := [New 1 [1; 2; 3; 4]; New 2 [5; 6; 7; 8]; AppendChars 1 [9]; New 3 (many 980 7); Destroy 3; New 4 (many 20 8)].
Theorem C16_moved_append_refuted : exists low place l x t, good place /\ wanted l x = Some t /\ bind (run low place heap0 l) (fun h => text h x) = Fault.
Proof. exists tenth, upward, moved_append, 2%nat, [5; 6; 7; 8]. split; [apply upward_good|]. split; vm_compute; reflexivity. Qed.
Print Assumptions C16_moved_append_refuted.
(** Overlapping parts of a string that has been destroyed *)
Definition overlap : list op := [New 4 (many 900 9); New 1 [1; 2; 3; 4; 5; 6; 7; 8]; Copy 2 1 0 5; Copy 3 1 3 5; Destroy 1; AssignChars 4 (many 100 7)].
Theorem C16_overlap_refuted : exists low place l x t u, good place /\ wanted l x = Some t /\
  bind (run low place heap0 l) (fun h => text h x) = Ok (Some u) /\ t <> u.
Proof.
  exists tenth, upward, overlap, 2%nat, [1; 2; 3; 4; 5], [9; 9; 9; 4; 5]. split; [apply upward_good|].
  split; [vm_compute; reflexivity|]. split; [vm_compute; reflexivity|]. congruence.
Qed.
Print Assumptions C16_overlap_refuted.
(** Appending a string reads it where it was before the heap was extended *)
Definition stale : list op := [New 1 (many 500 1); New 2 (many 400 2); AppendString 2 1].
Theorem C16_stale_refuted : exists low place l, good place /\ effects none l <> None /\ run low place heap0 l = Fault.
Proof. exists tenth, upward, stale. split; [apply upward_good|]. split; [vm_compute; congruence|vm_compute; reflexivity]. Qed.
Print Assumptions C16_stale_refuted.
(** A string made by the empty constructor has a null address until it is assigned; two collections later its neighbour is lost *)
Definition null_handle : list op := [New 1 [1; 2]; New 2 [1; 2; 3; 4; 5]; NewEmpty 4; New 3 [6; 7; 8]; Destroy 1; New 1 (many 991 9); Destroy 1; New 1 (many 980 0)].
Theorem C16_null_handle_refuted : exists low place l x t, good place /\ wanted l x = Some t /\ bind (run low place heap0 l) (fun h => text h x) = Fault.
Proof. exists tenth, upward, null_handle, 3%nat, [6; 7; 8]. split; [apply upward_good|]. split; vm_compute; reflexivity. Qed.
Print Assumptions C16_null_handle_refuted.
