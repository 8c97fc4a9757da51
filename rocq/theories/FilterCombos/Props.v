(** C52: filtering combinations. *)
From Coq Require Import List Arith Bool Lia FinFun.
From Verif.FilterCombos Require Import Model Spec Proofs.
Import ListNotations.

(** For every non-empty list of queues and every prefix checker: the call terminates, with exactly the combinations
    all of whose prefixes are accepted, in lexicographic order, and the iterator is left with nothing appended. *)
Theorem C52_exactly_valid_combinations : forall (T St O : Type) append backtrack finalize (ok : list T -> bool) (fin : list T -> O)
  (rep : St -> list T -> Prop), checker append backtrack finalize ok fin rep ->
  forall qs it, qs <> [] -> rep it [] ->
  exists N it', rep it' [] /\ forall fuel, N <= fuel ->
    filterCombos append backtrack finalize fuel qs it = Some (map fin (filter (valid ok) (product qs)), it').
Proof. exact (fun T St O a b f ok fin rep CK qs it => filterCombos_spec a b f ok fin rep CK qs it). Qed.
Print Assumptions C52_exactly_valid_combinations.
(** The collecting iterator is a checker that accepts everything: the whole product is returned. *)
Theorem C52_into_vector : forall (T : Type) (qs : list (list T)), qs <> [] ->
  exists N, forall fuel, N <= fuel -> filterCombos iv_append iv_backtrack iv_finalize fuel qs [] = Some (product qs, []).
Proof.
  intros T qs Hq.
  assert (CK : checker (@iv_append T) iv_backtrack iv_finalize (fun _ => true) (fun c => c) (fun s p => s = rev p)).
  { split.
    - intros s p x ->. cbn. rewrite rev_app_distr. auto.
    - intros s p x ->. rewrite rev_app_distr. reflexivity.
    - intros s p ->. apply rev_involutive. }
  destruct (filterCombos_spec _ _ _ _ _ _ CK qs [] Hq eq_refl) as (N & it' & R & F). cbn in R. subst it'.
  exists N. intros fuel Hf. rewrite (F fuel Hf). rewrite map_id.
  assert (E : forall l, filter (valid (fun _ : list T => true)) l = l).
  { intros l. assert (V : forall c, valid (fun _ : list T => true) c = true) by (intros c; apply forallb_forall; auto).
    induction l as [|c l IH]; [reflexivity|]. cbn [filter]. rewrite V, IH. reflexivity. }
  rewrite E. reflexivity.
Qed.
Print Assumptions C52_into_vector.
(** No combination is repeated when no queue repeats an element. *)
Theorem C52_no_duplicates : forall (T : Type) (ok : list T -> bool) qs, (forall q, In q qs -> NoDup q) -> NoDup (filter (valid ok) (product qs)).
Proof.
  intros T ok qs H. apply NoDup_filter. induction qs as [|q qs IH]; cbn; [repeat constructor; intros []|].
  specialize (IH (fun q Hq => H q (or_intror Hq))). assert (Hq := H q (or_introl eq_refl)). clear H.
  assert (A : forall l1 l2 : list (list T), NoDup l1 -> NoDup l2 -> (forall c, In c l1 -> ~ In c l2) -> NoDup (l1 ++ l2)).
  { induction l1 as [|a l1 IHl]; cbn; auto. intros l2 H1 H2 H3. inversion H1; subst. constructor.
    - rewrite in_app_iff. intros [G|G]; [auto|]. apply (H3 a); auto.
    - apply IHl; auto. }
  induction Hq as [|x q Hx Hq IHq]; cbn [flat_map]; [constructor|]. apply A; [|exact IHq|].
  - apply Injective_map_NoDup; [|exact IH]. intros a b E. injection E as E. exact E.
  - intros c Hc Hc'. apply in_map_iff in Hc. destruct Hc as (d & <- & _). apply in_flat_map in Hc'.
    destruct Hc' as (y & Hy & Hc'). apply in_map_iff in Hc'. destruct Hc' as (e & E & _). injection E as E _. subst y. exact (Hx Hy).
Qed.
Print Assumptions C52_no_duplicates.
(** A checker that keeps the sum of the chosen numbers and rejects sums above 6. *)
Definition sum_append (s : list nat) (x : nat) : list nat * bool :=
  if Nat.leb (fold_right plus x s) 6 then (x :: s, true) else (s, false).
Example C52_example :
  filterCombos sum_append (@tl nat) (@rev nat) 100 [[1; 5]; [2; 4]; [0; 3]] [] = Some ([[1; 2; 0]; [1; 2; 3]; [1; 4; 0]], [])
  /\ checker sum_append (@tl nat) (@rev nat) (fun c => Nat.leb (fold_right plus 0 c) 6) (fun c => c) (fun s p => s = rev p).
Proof.
  split; [vm_compute; reflexivity|]. split.
  - intros s p x ->. unfold sum_append.
    assert (E : fold_right plus x (rev p) = fold_right plus 0 (p ++ [x])).
    { rewrite fold_right_app. cbn. rewrite Nat.add_0_r. generalize x. clear.
      assert (G : forall l x, fold_right plus x l = fold_right plus 0 l + x) by (induction l as [|a l IHl]; cbn; intros y; [reflexivity|rewrite (IHl y); lia]).
      intros x. rewrite (G (rev p)), (G p). f_equal. induction p; cbn; auto. rewrite fold_right_app. cbn. rewrite G. lia. }
    rewrite E. destruct (Nat.leb _ 6); cbn; auto. rewrite rev_app_distr. auto.
  - intros s p x ->. rewrite rev_app_distr. reflexivity.
  - intros s p ->. apply rev_involutive.
Qed.
