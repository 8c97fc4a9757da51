(** C49, C50: scoped maps. *)
From Coq Require Import ZArith List Bool.
From Verif.ScopedMap Require Import Model Spec Proofs.
Import ListNotations.
Open Scope Z_scope.

(** C49: every history of operations on a fresh scoped map gives the results of the environment stack. *)
Theorem C49_refines_environment_stack : forall (V : Type) (dflt : V) (os : list (op V)),
  snd (run dflt initial os) = snd (spec_run dflt [empty] os).
Proof. exact (fun V dflt os => proj1 (run_spec dflt os initial [empty] Rel_init (fun H => nil_cons (eq_sym H)))). Qed.
Print Assumptions C49_refines_environment_stack.
(** A bracketed scope of insertions and look-ups leaves no trace. *)
Theorem C49_scope_restores : forall (V : Type) (dflt : V) (os : list (op V)) (s : scopes V),
  inner os -> s <> [] -> fst (run dflt s (Begin :: os ++ [End])) = Some s.
Proof. exact (fun V dflt os s => scope_restores dflt os s). Qed.
Print Assumptions C49_scope_restores.
(** Iteration visits every stored binding exactly once, innermost scope first. *)
Theorem C49_iteration : forall (V : Type) (s : scopes V), s <> [] -> iterate (fun _ => true) s = Some (concat s).
Proof.
  intros V s H. rewrite <- from_level_true. exact (iterate_spec (fun _ => true) s H).
Qed.
Print Assumptions C49_iteration.
Example C49_example :
  snd (run 0 initial [Insert 5 1; Begin; Insert 5 2; Insert 3 7; Begin; Begin; Find 5; Count 5; End; Erase 5; Find 5; End; End; Find 3; End]) =
  [Bool true; Unit; Bool true; Bool true; Unit; Unit; Val (Some (1%nat, 2)); Num 2; Unit; Num 1; Val (Some (0%nat, 1)); Unit; Unit; Val None; Stop]
  /\ iterate (fun _ => true) [[]; [(3, 7); (5, 2)]; []; [(5, 1)]] = Some [(3, 7); (5, 2); (5, 1)].
Proof. split; reflexivity. Qed.

(** C50: erasable maps; the sentinel test holds of the sentinel. *)
Theorem C50_erase_hides : forall (V : Type) (erased : V) (isE : V -> bool), isE erased = true ->
  forall (s : scopes V) k x, esorted s -> s <> [] ->
  efind isE (fst (eerase erased s k)) x = (if x =? k then None else efind isE s x) /\ esorted (fst (eerase erased s k)).
Proof.
  exact (fun V erased isE HE s k x Hs Hn => conj (eerase_find erased isE HE s k x Hs Hn) (eerase_sorted erased s k Hs)).
Qed.
Print Assumptions C50_erase_hides.
(** An insertion that reports success is found; one that reports failure changes nothing. *)
Theorem C50_insert_partial : forall (V : Type) (isE : V -> bool) (s : scopes V) k v x, esorted s -> s <> [] ->
  (snd (insert s k v) = true <-> mfind (hd [] s) k = None) /\
  (snd (insert s k v) = true -> efind isE (fst (insert s k v)) x =
     if x =? k then (if isE v then None else Some ((length s - 1)%nat, v)) else efind isE s x) /\
  (snd (insert s k v) = false -> fst (insert s k v) = s).
Proof. exact (fun V isE => einsert_find isE). Qed.
Print Assumptions C50_insert_partial.
(** Full statement: if find reports the key absent, then after insert it is found.  False when the key was erased in
    the current scope: insert reports failure and the key stays invisible. *)
Theorem C50_insert_after_erase_refuted : forall (V : Type) (erased : V) (isE : V -> bool), isE erased = true ->
  forall (s : scopes V) k v, esorted s -> s <> [] ->
  let s1 := fst (eerase erased s k) in
  efind isE s1 k = None /\ insert s1 k v = (s1, false) /\ efind isE (fst (insert s1 k v)) k = None.
Proof.
  intros V erased isE HE s k v Hs Hn s1.
  assert (H1 : efind isE s1 k = None).
  { unfold s1. rewrite (eerase_find erased isE HE s k k Hs Hn). rewrite Z.eqb_refl. reflexivity. }
  assert (Hs1 : esorted s1) by exact (eerase_sorted erased s k Hs).
  assert (Hn1 : s1 <> []).
  { unfold s1. destruct s as [|m r]; [congruence|]. cbn. destruct (mfind m k); discriminate. }
  destruct (einsert_find isE s1 k v k Hs1 Hn1) as (I1 & _ & I3).
  assert (Hb : snd (insert s1 k v) = false).
  { destruct (snd (insert s1 k v)) eqn:E; auto. assert (E1 := proj1 I1 eq_refl). exfalso. revert E1. unfold s1.
    destruct s as [|m r]; [congruence|]. cbn [eerase]. inversion Hs; subst. destruct (mfind m k) eqn:Ek; cbn [fst hd].
    - rewrite (mset_find erased isE HE) by congruence. rewrite Z.eqb_refl. discriminate.
    - destruct (minsert_find m k erased H2 k) as [F1 F2]. rewrite F1, (proj2 F2 Ek), Z.eqb_refl. discriminate. }
  split; auto. rewrite (I3 Hb). split; auto. rewrite <- Hb. rewrite <- (I3 Hb) at 2. apply surjective_pairing.
Qed.
Print Assumptions C50_insert_after_erase_refuted.
(** Entering a scope changes no look-up, and leaving it gives back the old map. *)
Theorem C50_scope : forall (V : Type) (isE : V -> bool) (s : scopes V) k m, s <> [] ->
  efind isE (beginScope s) k = efind isE s k /\ endScope (m :: s) = Some s.
Proof.
  intros V isE s k m H. split; [reflexivity|]. destruct s; [congruence|reflexivity].
Qed.
Print Assumptions C50_scope.
(** Iteration: exactly the stored entries that are not sentinels, of every scope. *)
Theorem C50_iteration_partial : forall (V : Type) (isE : V -> bool) (s : scopes V), s <> [] ->
  eiterate isE s = Some (concat (map (filter (fun p => negb (isE (snd p)))) s)).
Proof.
  intros V isE s H. unfold eiterate. rewrite (iterate_spec (fun v => negb (isE v)) s H). f_equal.
  clear H. induction s as [|m s IH]; [reflexivity|]. cbn. rewrite IH. reflexivity.
Qed.
Print Assumptions C50_iteration_partial.
(** Full statement: iteration visits only bindings that find would return.  False: entries erased or shadowed by an
    inner scope are visited too. *)
Theorem C50_iteration_refuted : exists (s : scopes Z) k v l, eiterate (Z.eqb 0) s = Some l /\ In (k, v) l /\
  efind (Z.eqb 0) s k = None /\ s = fst (eerase 0 (beginScope (fst (insert initial 7 42))) 7).
Proof. exists [[(7, 0)]; [(7, 42)]], 7, 42, [(7, 42)]. repeat split; auto. left; reflexivity. Qed.
Print Assumptions C50_iteration_refuted.
(** erase's result (documented: 1 when an element was erased): 0 although an outer binding was hidden, and 1 although
    the key was already hidden. *)
Theorem C50_erase_result_refuted : exists (s : scopes Z) k,
  efind (Z.eqb 0) s k <> None /\ snd (eerase 0 s k) = 0 /\ snd (eerase 0 (fst (eerase 0 s k)) k) = 1.
Proof. exists [[]; [(7, 42)]], 7. repeat split; discriminate. Qed.
Print Assumptions C50_erase_result_refuted.
Example C50_example : let s := [[(1, 10); (4, 0)]; [(4, 40); (9, 90)]] in
  esorted s /\ s <> [] /\ efind (Z.eqb 0) s 4 = None /\ efind (Z.eqb 0) s 9 = Some (0%nat, 90) /\
  efind (Z.eqb 0) (fst (eerase 0 s 9)) 9 = None /\ efind (Z.eqb 0) (fst (insert s 2 20)) 2 = Some (1%nat, 20).
Proof.
  cbn zeta. split; [|repeat split; discriminate].
  repeat constructor; intros k' v' H; repeat (destruct H as [H|H]; [injection H; intros; subst; reflexivity|]); destruct H.
Qed.
