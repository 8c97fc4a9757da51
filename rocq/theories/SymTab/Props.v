From Coq Require Import List Bool Arith Lia Permutation.
From Verif.SymTab Require Import Model Spec Proofs Special.
Import ListNotations.
(** The snapshots taken when needed are not visible: every operation fails or succeeds, and leaves the same tables, as with a table for each open scope *)
Theorem C102_lazy : forall ign compat l, match srun ign compat l [tables empty] with
  | Some stk => exists s, run ign compat l empty = Some s /\ S (scope s) = length stk /\ forall n, n <= scope s -> nth_error stk (scope s - n) = Some (tables (at_scope n s))
  | None => run ign compat l empty = None end.
Proof.
  intros ign compat l. pose proof (rel_run ign compat l _ _ rel_empty) as G. change (tables empty) with tabs0. destruct (srun ign compat l [tabs0]) as [stk|]; [|exact G]. destruct G as [s [R H]]. exists s. split; [exact R|]. destruct (rel_hd _ _ H) as [rest [Es [L _]]]. split; [rewrite Es; cbn [length]; congruence|].
  intros n Hn. destruct (at_scope_rel _ _ H n Hn) as [x E]. rewrite <- (firstn_skipn (scope s - n) stk). rewrite nth_error_app2 by (rewrite firstn_length; lia). rewrite firstn_length, E. assert (Q : length stk = S (scope s)) by (rewrite Es; cbn [length]; congruence). replace (scope s - n - Nat.min (scope s - n) (length stk)) with 0 by lia. reflexivity.
Qed.
Print Assumptions C102_lazy.
(** Leaving a scope makes visible what was before it was entered, whatever was declared inside *)
Theorem C102_restore : forall ign compat l0 l s s', run ign compat l0 empty = Some s -> balanced 0 l -> run ign compat (Enter :: l ++ [Leave]) s = Some s' ->
  tables s' = tables s /\ scope s' = scope s /\ forall l', option_map tables (run ign compat l' s') = option_map tables (run ign compat l' s).
Proof.
  intros ign compat l0 l s s' H B R. destruct (reach _ _ _ _ H) as [stk [_ G]]. pose proof (restore _ _ _ _ _ _ G B R) as G'. destruct (rel_hd _ _ G) as [r [E [L _]]]. destruct (rel_hd _ _ G') as [r' [E' [L' _]]]. rewrite E in E'. injection E' as Et Er. subst r'. repeat split; [auto|congruence|]. intros l'. eapply rel_same; eauto.
Qed.
Print Assumptions C102_restore.
(** The lookup in an outer scope finds what would be found after leaving the inner ones *)
Theorem C102_outer : forall ign compat l s n, run ign compat l empty = Some s -> n <= scope s -> exists s', run ign compat (repeat Leave (scope s - n)) s = Some s' /\ scope s' = n /\ forall k, lookup_id (at_scope n s) k = lookup_id s' k /\ forall a m, lookup_agg (at_scope n s) a m = lookup_agg s' a m.
Proof.
  intros ign compat l s n H Ln. destruct (reach _ _ _ _ H) as [stk [_ G]]. destruct (global_tables ign compat s stk n G Ln) as [s' [R [T Sc]]]. exists s'. repeat split; auto; unfold lookup_id, lookup_agg; intros; now rewrite T.
Qed.
Print Assumptions C102_outer.
(** A declaration in a new scope is accepted, hides the outer one and nothing else *)
Theorem C102_type_hides : forall ign compat l s k a, run ign compat l empty = Some s -> exists s', run ign compat [Enter; AddAgg k a] s = Some s' /\ forall k' n, lookup_agg s' k' n = if akind_eqb k' k && (n =? a_name a) then Some a else lookup_agg s k' n.
Proof. intros ign compat l s k a H. apply shadow_agg. eapply reach_bounded; eauto. Qed.
Print Assumptions C102_type_hides.
Theorem C102_id_hides : forall ign compat l s d del, run ign compat l empty = Some s -> d_name d <> 0 -> d_spec d = None -> exists s', run ign compat [Enter; AddId d del] s = Some s' /\
  forall k m, mfind m (ids (tables s') k) = if key_eqb k (KId (d_name d)) && (m =? d_mangle d) then Some (Data d del (S (scope s))) else mfind m (ids (tables s) k).
Proof. intros ign compat l s d del H N Sp. destruct (shadow_id ign compat s d del (reach_bounded _ _ _ _ H) N Sp) as [s' [R [_ F]]]. eauto. Qed.
Print Assumptions C102_id_hides.
(** Two declarations of an aggregate in one scope: the one with a body stays visible, two bodies are an error *)
Theorem C102_redeclare : forall compat l s k a b, run false compat l empty = Some s -> k <> AType -> a_name a = a_name b ->
  match run false compat [Enter; AddAgg k a; AddAgg k b] s with
  | Some s' => a_full a && a_full b = false /\ lookup_agg s' k (a_name a) = Some (if a_full a then a else b)
  | None => a_full a = true /\ a_full b = true
  end.
Proof.
  intros compat l s k a b H K N. pose proof (reach_bounded _ _ _ _ H) as [_ B]. change [Enter; AddAgg k a; AddAgg k b] with ([Enter; AddAgg k a] ++ [AddAgg k b]). rewrite run_app. cbn [run step enter change]. unfold add_agg at 1. cbn [tables scope enter].
  assert (E : match aggs (tables s) k (a_name a) with Some (e, s0) => if s0 =? S (scope s) then match agg_conflicts false compat k e a with Some true => Same | Some false => Upd (set_agg (tables s) k (a_name a) (a, S (scope s))) | None => Bad end else Upd (set_agg (tables s) k (a_name a) (a, S (scope s))) | None => Upd (set_agg (tables s) k (a_name a) (a, S (scope s))) end = Upd (set_agg (tables s) k (a_name a) (a, S (scope s)))).
  { destruct (aggs (tables s) k (a_name a)) as [[e s0]|] eqn:E; [|reflexivity]. specialize (B _ _ _ _ E). destruct (Nat.eqb_spec s0 (S (scope s))); [lia|reflexivity]. }
  rewrite E. set (s1 := lazy_init (enter s)). assert (Es : scope s1 = S (scope s)) by (unfold s1, lazy_init, enter; cbn [scope rep]; destruct (rep s =? S (scope s)); reflexivity). cbn [tables scope]. rewrite Es.
  assert (Kk : akind_eqb k k = true) by (destruct k; reflexivity). unfold add_agg. rewrite <- N. cbn [set_agg aggs]. rewrite Kk, Nat.eqb_refl. cbn [andb]. rewrite Nat.eqb_refl.
  assert (C : agg_conflicts false compat k a b = if a_full a then if a_full b then None else Some true else Some false) by (destruct k; try congruence; unfold agg_conflicts; destruct (a_full a), (a_full b); reflexivity). rewrite C.
  destruct (a_full a) eqn:Fa; [destruct (a_full b) eqn:Fb; [auto|]|]; cbn [andb]; (split; [reflexivity|]); unfold lookup_agg; cbn [tables set_agg aggs]; rewrite Kk, Nat.eqb_refl; reflexivity.
Qed.
Print Assumptions C102_redeclare.
(** No scope has two different identifiers of one name with C linkage *)
Theorem C102_c_linkage : forall compat l s n e1 e2, run false compat l empty = Some s -> In e1 (ids (tables s) (KId n)) -> In e2 (ids (tables s) (KId n)) -> dscope (snd e1) = dscope (snd e2) -> d_load (who (snd e1)) = false -> d_load (who (snd e2)) = false -> fst e1 = fst e2.
Proof. intros compat l s n e1 e2 H. apply (reach_unique compat l s H). Qed.
Print Assumptions C102_c_linkage.
(** Which special functions of a type can be called depends on which were declared, not on their order *)
Theorem C103_available_partial : forall ign compat kd ok l s s' d, family kd ok l -> NoDup l -> ids (tables s) (KSp kd ok) = [] -> no_c (tables s) -> run ign compat (map (fun d => AddId d None) l) s = Some s' -> available (tables s') (KSp kd ok) d <-> callable l d.
Proof. exact adds_available. Qed.
Print Assumptions C103_available_partial.
Theorem C103_order_partial : forall ign compat kd ok l1 l2 s s1 s2, family kd ok l1 -> NoDup l1 -> Permutation l1 l2 -> ids (tables s) (KSp kd ok) = [] -> no_c (tables s) ->
  run ign compat (map (fun d => AddId d None) l1) s = Some s1 -> run ign compat (map (fun d => AddId d None) l2) s = Some s2 -> forall d, available (tables s1) (KSp kd ok) d <-> available (tables s2) (KSp kd ok) d.
Proof.
  intros ign compat kd ok l1 l2 s s1 s2 F ND P E Nc R1 R2 d. assert (I : forall x, In x l1 <-> In x l2) by (intros x; split; apply Permutation_in; [exact P|now symmetry]).
  rewrite (adds_available _ _ _ _ _ _ _ d F ND E Nc R1). assert (F2 : family kd ok l2) by (destruct F as [A B C]; constructor; intros; [apply A|apply B|apply C]; auto; now apply I).
  rewrite (adds_available _ _ _ _ _ _ _ d F2 (Permutation_NoDup P ND) E Nc R2). now apply callable_ext.
Qed.
Print Assumptions C103_order_partial.
(** With intrinsic functions it does: whether a copy function or another one of the user comes first *)
Definition fn (id m : nat) (over intr copy : bool) : decl := D id 1 m true true over true intr (Some (0, 7, 7)) copy 0.
Definition avail_ids (o : option symtab) : option (list nat) := match o with Some s => Some (map (fun x => d_id (who x)) (filter (fun x => match deleter x with None => true | Some _ => false end) (lookup_id s (KSp 0 7)))) | None => None end.
Theorem C103_intrinsic_refuted : exists (i c u : decl), d_over i = true /\ d_over c = false /\ d_over u = false /\
  avail_ids (run false Nat.eqb (map (fun d => AddId d None) [i; u; c]) empty) = Some [1; 3; 2] /\ avail_ids (run false Nat.eqb (map (fun d => AddId d None) [i; c; u]) empty) = Some [2; 3] /\ d_id i = 1.
Proof. exists (fn 1 10 true true false), (fn 2 11 false false true), (fn 3 12 false false false). repeat split. Qed.
Print Assumptions C103_intrinsic_refuted.
(** A function of the user before the generated one of the same type (the structure is only declared there) is an error, after it not *)
Theorem C103_before_refuted : exists (g u : decl), family 0 7 [u; g] /\ d_over g = true /\ d_over u = false /\ run false Nat.eqb (map (fun d => AddId d None) [u; g]) empty = None /\ avail_ids (run false Nat.eqb (map (fun d => AddId d None) [g; u]) empty) = Some [2].
Proof.
  exists (fn 1 10 true false false), (fn 2 10 false false false). split; [|repeat split]. constructor.
  - intros d [<-|[<-|[]]]; repeat split; discriminate.
  - intros a b [<-|[<-|[]]] [<-|[<-|[]]] _; split; reflexivity.
  - intros a b [<-|[<-|[]]] [<-|[<-|[]]] _; cbn; congruence.
Qed.
Print Assumptions C103_before_refuted.
(** Examples: two structures of one name in nested scopes; the outer one again after the block *)
Example C102_example : let a := AD 1 5 true 0 in let b := AD 2 5 true 0 in
  match run false Nat.eqb [AddAgg AStruct a; Enter; AddAgg AStruct b] empty with Some s => lookup_agg s AStruct 5 = Some b /\ global_agg s AStruct 5 = Some a | None => False end
  /\ match run false Nat.eqb [AddAgg AStruct a; Enter; AddAgg AStruct b; Enter; Leave; Leave] empty with Some s => lookup_agg s AStruct 5 = Some a | None => False end.
Proof. vm_compute. repeat split. Qed.
Example C102_c_example : let f m := D m 3 m true false false false false None false m in run false Nat.eqb [AddId (f 8) None; AddId (f 9) None] empty = None /\ run false Nat.eqb [AddId (f 8) None; AddId (f 8) None] empty <> None.
Proof. vm_compute. split; [reflexivity|discriminate]. Qed.
(** generated default (1), copy (2) and field (3) constructors, then a constructor of the user (4) of other parameters, then a copy constructor (5) *)
Example C103_example : let g := [fn 1 10 true false false; fn 2 11 true false true; fn 3 12 true false false] in
  avail_ids (run false Nat.eqb (map (fun d => AddId d None) g) empty) = Some [1; 2; 3]
  /\ avail_ids (run false Nat.eqb (map (fun d => AddId d None) (g ++ [fn 4 13 false false false])) empty) = Some [2; 4]
  /\ avail_ids (run false Nat.eqb (map (fun d => AddId d None) (g ++ [fn 4 13 false false false; fn 5 11 false false true])) empty) = Some [4; 5]
  /\ avail_ids (run false Nat.eqb (map (fun d => AddId d None) (fn 5 11 false false true :: g)) empty) = None
  /\ avail_ids (run true Nat.eqb (map (fun d => AddId d None) (fn 5 11 false false true :: g)) empty) = Some [5].
Proof. vm_compute. repeat split. Qed.
