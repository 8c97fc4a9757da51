From Coq Require Import ZArith List Bool Arith Lia Permutation Sorted.
From Verif Require Import Cost.Model Prune.Model Prune.Spec Prune.Proofs.
Import ListNotations.
Local Open Scope nat_scope.

(** C108: for every type the candidate reported is the choice among all candidates of that type whose assertions are satisfied, whatever the order of the candidates *)
Theorem C108_choice l k : sane l -> report (select l) k = choice (of_type k (all l)).
Proof. intros S0. apply report_entry, rep_select, S0. Qed.
Print Assumptions C108_choice.
Local Notation z := zero.
Definition c1 := C 1 7 z z false.
Definition c2 := C 2 7 safe z false.
Definition c3 := C 3 8 safe z false.
Definition c4 := C 4 8 safe z false.
Definition c5 := C 5 9 safe safe true.
Definition c6 := C 6 9 safe safe false.
Definition ex := map (fun c => P c [c]) [c1; c2; c3; c4; c5; c6].
Example C108_choice_ex : map (report (select ex)) [7; 8; 9; 10] = [Some c1; None; Some c6; None].
Proof. vm_compute. reflexivity. Qed.
Example C108_sane_ex : sane ex.
Proof.
  split.
  - intros p c Ip Ic. unfold ex in Ip. apply in_map_iff in Ip as (x & <- & _). destruct Ic as [<-|[]]. apply lt_irr.
  - intros a p b E0. left. intros c Ic. assert (Ip : In p ex) by (rewrite E0; apply in_or_app; right; left; reflexivity). apply in_map_iff in Ip as (x & <- & _). destruct Ic as [<-|[]]. reflexivity.
Qed.

(** nothing reported is beaten by another candidate of its type; it is the only live one of its rank, or all of its rank are deleted *)
Theorem C108_best l k c : sane l -> report (select l) k = Some c ->
  In c (all l) /\ key c = k /\ (forall d, In d (all l) -> key d = k -> beats d c = false) /\
  (deleted c = false -> forall a b, of_type k (all l) = a ++ c :: b -> forall d, In d (a ++ b) -> deleted d = false -> beats c d = true) /\
  (deleted c = true -> forall d, In d (all l) -> key d = k -> same c d -> deleted d = true).
Proof.
  intros S0 R0. rewrite (C108_choice l k S0) in R0.
  assert (Ib : In c (best (of_type k (all l)))).
  { unfold choice in R0. destruct (live (best (of_type k (all l)))) as [|x [|y r]] eqn:L.
    - destruct (best (of_type k (all l))) as [|w m]; [discriminate|]. injection R0 as ->. left. reflexivity.
    - assert (X : In x (live (best (of_type k (all l))))) by (rewrite L; left; reflexivity). apply filter_In in X. destruct (best (of_type k (all l))); injection R0 as ->; apply X.
    - destruct (best (of_type k (all l))); discriminate. }
  assert (Ib' := Ib). apply in_best in Ib' as [I1 I2]. apply filter_In in I1 as [I1 K]. apply Nat.eqb_eq in K.
  split; [exact I1|]. split; [exact K|]. split; [intros d D Kd; apply I2, filter_In; split; [exact D|apply Nat.eqb_eq, Kd]|].
  assert (Mem : forall d, In d (all l) -> key d = k -> same c d -> In d (best (of_type k (all l)))).
  { intros d D Kd Sd. apply in_best. split; [apply filter_In; split; [exact D|apply Nat.eqb_eq, Kd]|]. intros x X. destruct (same_beats c d x Sd) as [_ <-]. apply I2, X. }
  split.
  - intros Dc a b Eq d Id Dd.
    assert (Idk : In d (of_type k (all l))) by (rewrite Eq; apply in_app_or in Id as [Id|Id]; apply in_or_app; [left; exact Id|right; right; exact Id]).
    destruct (beats_tot c d) as [Q|[Q|Q]]; [exact Q| |rewrite (I2 d Idk) in Q; discriminate]. exfalso.
    (* two live candidates of the best rank *)
    assert (Lv : exists u v w, live (best (of_type k (all l))) = u ++ c :: w /\ In d (u ++ w) /\ v = d).
    { assert (Pd : forallb (fun x => negb (beats x d)) (of_type k (all l)) = true). { apply forallb_forall. intros x X. destruct (same_beats c d x Q) as [_ <-]. rewrite (I2 x X). reflexivity. }
      assert (Pc : forallb (fun x => negb (beats x c)) (of_type k (all l)) = true). { apply forallb_forall. intros x X. rewrite (I2 x X). reflexivity. }
      unfold best. set (f := fun c => forallb (fun x => negb (beats x c)) (of_type k (all l))) in *. rewrite Eq. unfold live. rewrite !filter_app. cbn [filter]. change (f c) with (forallb (fun x => negb (beats x c)) (of_type k (all l))). rewrite Pc. cbn [filter]. rewrite Dc. cbn [negb].
      eexists _, d, _. split; [reflexivity|]. split; [|reflexivity]. rewrite <- filter_app, <- filter_app. apply filter_In. split; [apply filter_In; split; [exact Id|exact Pd]|rewrite Dd; reflexivity]. }
    destruct Lv as (u & v & w & Lv & Iw & _). unfold choice in R0. rewrite Lv in R0. destruct u as [|u0 u]; cbn [app] in *.
    + destruct w as [|w0 w]; [destruct Iw|]. destruct (best (of_type k (all l))); discriminate.
    + destruct u as [|? ?]; cbn [app] in R0; destruct (best (of_type k (all l))); discriminate.
  - intros Dc d D Kd Sd. specialize (Mem d D Kd Sd). destruct (deleted d) eqn:Dd; [reflexivity|exfalso]. unfold choice in R0.
    assert (X : In d (live (best (of_type k (all l))))) by (apply filter_In; split; [exact Mem|rewrite Dd; reflexivity]).
    destruct (live (best (of_type k (all l)))) as [|x [|y r]] eqn:L; [destruct X| |destruct (best (of_type k (all l))); discriminate].
    assert (Xx : In x (live (best (of_type k (all l))))) by (rewrite L; left; reflexivity). apply filter_In in Xx as [_ Xx]. destruct (best (of_type k (all l))); injection R0 as ->; rewrite Dc in Xx; discriminate.
Qed.
Print Assumptions C108_best.
Example C108_best_ex : beats c1 c2 = true /\ same c5 c6 /\ report (select ex) 9 = Some c6. Proof. vm_compute. auto. Qed.

(** the order in which the sort leaves candidates of the same cost matters only between deleted ones *)
Theorem C108_order l m k : sane l -> sane m -> Permutation l m ->
  report (select l) k = report (select m) k \/
  exists c d, report (select l) k = Some c /\ report (select m) k = Some d /\ deleted c = true /\ deleted d = true /\ same c d.
Proof.
  intros S1 S2 P0. rewrite !C108_choice by assumption. apply perm_choice. apply perm_filter. unfold all. apply Permutation_flat_map, P0.
Qed.
Print Assumptions C108_order.
Example C108_order_ex : map (report (select (rev ex))) [7; 8; 9; 10] = map (report (select ex)) [7; 8; 9; 10]. Proof. vm_compute. reflexivity. Qed.

(** an error is reported as ambiguous exactly if some candidate satisfies its assertions *)
Theorem C108_found l : sane l -> (exists k, select l k <> None) <-> all l <> [].
Proof.
  intros S0. assert (R0 := rep_select l S0). split.
  - intros (k & K). rewrite (R0 k) in K. destruct (entry (of_type k (all l))) as [[c a]|] eqn:E0; [|congruence]. apply entry_in, in_best in E0 as [E0 _]. apply filter_In in E0 as [E0 _].
    intros N. rewrite N in E0. destruct E0.
  - intros N. destruct (all l) as [|c r] eqn:A; [congruence|]. exists (key c). rewrite (R0 (key c)). intros X. apply entry_none in X. unfold of_type in X. cbn [filter] in X. rewrite Nat.eqb_refl in X. discriminate.
Qed.
Print Assumptions C108_found.
Example C108_found_ex : select [P c1 []] 7 = None. Proof. vm_compute. reflexivity. Qed.

(** findMinCost keeps exactly the candidates of the least cost, in order, also when all costs are infinite *)
Theorem C108_min l c : In c (findMinCost l) <-> In c l /\ forall d, In d l -> ltb (cost d) (cost c) = false.
Proof.
  rewrite min_least. unfold least. rewrite filter_In, forallb_forall. split; intros [A B]; split; try exact A; intros d D; specialize (B d D); destruct (ltb (cost d) (cost c)); cbn in *; congruence.
Qed.
Print Assumptions C108_min.
Theorem C108_min_order l : findMinCost l = filter (fun c => forallb (fun d => negb (ltb (cost d) (cost c))) l) l.
Proof. apply min_least. Qed.
Print Assumptions C108_min_order.
Example C108_min_ex : findMinCost [c2; c1; C 9 1 zero safe false; c3] = [c1; C 9 1 zero safe false] /\ findMinCost [C 1 1 infinity z false] = [C 1 1 infinity z false]. Proof. vm_compute. auto. Qed.

(** the alternatives named when the choice fails need not be those between which it fails: they are taken before the assertions *)
Theorem C108_named_refuted : ~ (forall l, sane l -> (forall k, report (select l) k = None) -> all l <> [] -> 2 <= length (named l)).
Proof.
  intros H. specialize (H [P c1 []; P c3 [c3]; P c4 [c4]]).
  assert (S0 : sane [P c1 []; P c3 [c3]; P c4 [c4]]).
  { split.
    - intros p c [<-|[<-|[<-|[]]]] Ic; [destruct Ic|destruct Ic as [<-|[]]; apply lt_irr|destruct Ic as [<-|[]]; apply lt_irr].
    - intros a p b E0. left. intros c Ic. assert (Ip : In p [P c1 []; P c3 [c3]; P c4 [c4]]) by (rewrite E0; apply in_or_app; right; left; reflexivity).
      destruct Ip as [<-|[<-|[<-|[]]]]; [destruct Ic|destruct Ic as [<-|[]]; reflexivity|destruct Ic as [<-|[]]; reflexivity]. }
  assert (2 <= 1) as X; [|lia]. apply H; [exact S0|intros k|discriminate]. rewrite C108_choice by exact S0.
  change (all [P c1 []; P c3 [c3]; P c4 [c4]]) with [c3; c4]. destruct (Nat.eq_dec k 8) as [->|N]; [vm_compute; reflexivity|].
  unfold of_type. cbn [filter]. change (key c3) with 8. change (key c4) with 8. destruct (Nat.eqb_spec 8 k); [congruence|]. reflexivity.
Qed.
Print Assumptions C108_named_refuted.
Example C108_named_ex : named [P c1 []; P c3 [c3]; P c4 [c4]] = [c1]. Proof. vm_compute. reflexivity. Qed.

(** a cost that is lowered by satisfying the assertions would be missed: the candidates are skipped by their cost before *)
Example C108_skip_ex : let cheap := C 4 7 zero z false in report (select [P c2 [c2]; P (C 4 7 unsafe z false) [cheap]]) 7 = Some c2 /\ beats cheap c2 = true.
Proof. vm_compute. auto. Qed.
