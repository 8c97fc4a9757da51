(** C55: unification of types. C56: combining type environments. *)
From Coq Require Import List Bool Arith Lia Permutation.
From Verif Require Import Unify.Model Unify.Spec Unify.Proofs Unify.Sound Unify.Combine.
Import ListNotations.

(** ** C55 *)
(** For all types and widening modes: no iterator to an erased class is used; whatever the outcome, the environment still has one class per variable, no cyclic binding, and the same variables. *)
Theorem C55_environment_stays_correct : forall d f w t1 t2 E, ok_env E ->
  match exact d f w t1 t2 E with
  | Dangling => False
  | Ret E' _ => ok_env E' /\ forall v, lookup E v = None <-> lookup E' v = None
  | _ => True
  end /\
  match inexact d f w t1 t2 E with
  | Dangling => False
  | Ret E' _ => ok_env E' /\ forall v, lookup E v = None <-> lookup E' v = None
  | _ => True
  end.
Proof.
  intros d f w t1 t2 E O. set (X := fun _ : nat => True). assert (Cl : closed X E) by (intros i j _ _; exact I).
  assert (P : forall l, pre X E l) by (intros l v _; destruct (lookup_dec E v) as [[i K]|N]; [left; exists i; split; [exact K|exact I]|right; exact N]).
  pose proof (@o_exact d f (okf_all d f) w t1 t2 E X O Cl (P _) (P _)) as A. pose proof (@o_inexact d f (okf_all d f) w t1 t2 E X O Cl (P _) (P _)) as B. split.
  - destruct (exact d f w t1 t2 E); auto. destruct A as [A _]. split; [exact (s_inv A)|]. intros v. exact (step_none v A).
  - destruct (inexact d f w t1 t2 E); auto. destruct B as [B _]. split; [exact (s_inv B)|]. intros v. exact (step_none v B).
Qed.
Print Assumptions C55_environment_stays_correct.
Lemma main : forall d f t1 t2 E E' b, ok_env E -> plain_env d E -> names_ok d E -> plain d t1 -> plain d t2 -> exact d f nowiden t1 t2 E = Ret E' b ->
  sem d (fun _ => True) E E' (eqv t1 t2) /\ (if b then forall s, solves s E' -> eqv t1 t2 s else forall s, solves s E -> proper d s E -> ~ eqv t1 t2 s).
Proof.
  intros d f t1 t2 E E' b O PE N L1 L2 R. set (X := fun _ : nat => True). assert (Cl : closed X E) by (intros i j _ _; exact I).
  assert (P : forall l, pre X E l) by (intros l v _; destruct (lookup_dec E v) as [[i K]|M]; [left; exists i; split; [exact K|exact I]|right; exact M]).
  assert (CX : ctx d X E) by (split; assumption).
  pose proof (@g_exact d f (semf_all d f) t1 t2 E X CX (P _) (P _) L1 L2) as G. rewrite R in G. destruct G as [S1 G]. split; [exact S1|].
  destruct b; intros s H; apply G; apply sx_all; exact H.
Qed.
(** When unification succeeds on plain types, every solution of the new environment makes the two types equal and solves the old environment. *)
Theorem C55_success_makes_equal : forall d f t1 t2 E E', ok_env E -> plain_env d E -> names_ok d E -> plain d t1 -> plain d t2 ->
  exact d f nowiden t1 t2 E = Ret E' true -> forall s, solves s E' -> val s t1 = val s t2 /\ solves s E.
Proof.
  intros d f t1 t2 E E' O PE N L1 L2 R s H. destruct (main _ _ _ _ _ _ _ O PE N L1 L2 R) as [S1 G]. split; [apply G; exact H|]. apply sx_all, (m_back S1), sx_all, H.
Qed.
Print Assumptions C55_success_makes_equal.
(** The old equations survive failure too: nothing is lost, and nothing but consequences of the equality is added. *)
Theorem C55_environment_is_extended : forall d f t1 t2 E E' b, ok_env E -> plain_env d E -> names_ok d E -> plain d t1 -> plain d t2 ->
  exact d f nowiden t1 t2 E = Ret E' b -> plain_env d E' /\ names_ok d E' /\ (forall s, solves s E' -> solves s E) /\ (forall s, solves s E -> val s t1 = val s t2 -> solves s E').
Proof.
  intros d f t1 t2 E E' b O PE N L1 L2 R. destruct (main _ _ _ _ _ _ _ O PE N L1 L2 R) as [S1 _]. split; [exact (m_plain S1)|]. split; [exact (names_step (m_step S1) N)|]. split.
  - intros s H. apply sx_all, (m_back S1), sx_all, H.
  - intros s H He. apply sx_all, (m_fwd S1); [apply sx_all, H|exact He].
Qed.
Print Assumptions C55_environment_is_extended.
(** Success means that there is a common instance. *)
Theorem C55_success_has_instance : forall d f t1 t2 E E', ok_env E -> plain_env d E -> names_ok d E -> plain d t1 -> plain d t2 ->
  exact d f nowiden t1 t2 E = Ret E' true -> exists s, solves s E' /\ solves s E /\ val s t1 = val s t2 /\ forall v, lookup E v = None -> s v = TVar noq v.
Proof.
  intros d f t1 t2 E E' O PE N L1 L2 R. destruct (main _ _ _ _ _ _ _ O PE N L1 L2 R) as [S1 G].
  destruct (solution (s_inv (m_step S1))) as (s & H & K). exists s. split; [exact H|]. split; [apply sx_all, (m_back S1), sx_all, H|]. split; [apply G; exact H|].
  intros v L. apply K. apply (step_none v (m_step S1)). exact L.
Qed.
Print Assumptions C55_success_has_instance.
Theorem C55_no_common_instance_fails : forall d f t1 t2 E, ok_env E -> plain_env d E -> names_ok d E -> plain d t1 -> plain d t2 ->
  (forall s, solves s E -> val s t1 <> val s t2) -> forall E', exact d f nowiden t1 t2 E <> Ret E' true.
Proof.
  intros d f t1 t2 E O PE N L1 L2 H E' R. destruct (C55_success_has_instance _ _ _ _ _ _ O PE N L1 L2 R) as (s & _ & K & Q & _). exact (H s K Q).
Qed.
Print Assumptions C55_no_common_instance_fails.
(** Conversely, failure means that no solution that respects the declarations of the variables makes the types equal. *)
Theorem C55_failure_means_no_instance : forall d f t1 t2 E E', ok_env E -> plain_env d E -> names_ok d E -> plain d t1 -> plain d t2 ->
  exact d f nowiden t1 t2 E = Ret E' false -> forall s, solves s E -> proper d s E -> val s t1 <> val s t2.
Proof. intros d f t1 t2 E E' O PE N L1 L2 R s H P. destruct (main _ _ _ _ _ _ _ O PE N L1 L2 R) as [_ G]. apply (G s H P). Qed.
Print Assumptions C55_failure_means_no_instance.

(** Variables 0-9 stand for object types, 0-4 of them complete, 10 and up for functions; 20 and 21 have the same name; enumeration 0 is a C enum. *)
Definition dx : decls := D (fun v => if Nat.eqb v 21 then 20 else v) (fun v => if Nat.leb v 9 then Dtype else Ftype) (fun v => Nat.leb v 4) (fun a b => Nat.max a b) Nat.eqb (Nat.eqb 0) (fun _ => false).
Definition int := Basic noq 6.
Definition float := Basic noq 20.
Definition const (t : ty) : ty := setq (Q true false false false) t.
Definition fresh_env (l : list nat) : env := map (fun v => C v [v] None true) l.
Definition outcome {A} (r : res A) : option A := match r with Ret _ a => Some a | _ => None end.
Definition after {A} (r : res A) : env := match r with Ret E _ => E | _ => [] end.
Definition class_of (E : env) (v : nat) : option (list nat * option ty) := match lookup E v with Some c => Some (vars c, bound c) | None => None end.
(** pair of T0 and pointer to T1, against pair of pointer to T2 and T0 *)
Example C55_ex_pair : let r := exact dx 20 nowiden (Agg noq 1 [TVar noq 0; Ptr noq (TVar noq 1)]) (Agg noq 1 [Ptr noq (TVar noq 2); TVar noq 0]) (fresh_env [0; 1; 2]) in
  outcome r = Some true /\ class_of (after r) 0 = Some ([0], Some (Ptr noq (TVar noq 2))) /\ class_of (after r) 1 = Some ([1; 2], None).
Proof. vm_compute. repeat split. Qed.
Example C55_ex_occurs : outcome (exact dx 20 nowiden (TVar noq 0) (Ptr noq (TVar noq 0)) (fresh_env [0])) = Some false
  /\ outcome (exact dx 20 nowiden (Agg noq 1 [TVar noq 0; TVar noq 1]) (Agg noq 1 [Ptr noq (TVar noq 1); Ptr noq (TVar noq 0)]) (fresh_env [0; 1])) = Some false.
Proof. vm_compute. auto. Qed.
Example C55_ex_function : let r := exact dx 20 nowiden (Fun noq [const (TVar noq 0)] [TVar noq 0]) (Fun noq [int] [int]) (fresh_env [0]) in
  outcome r = Some true /\ class_of (after r) 0 = Some ([0], Some int)
  /\ outcome (exact dx 20 nowiden (Fun noq [Ptr noq (const int)] []) (Fun noq [Ptr noq int] []) []) = Some false.
Proof. vm_compute. auto. Qed.
Example C55_ex_kinds : outcome (exact dx 20 nowiden (TVar noq 0) (Fun noq [] []) (fresh_env [0])) = Some false /\ outcome (exact dx 20 nowiden (TVar noq 10) (Fun noq [] []) (fresh_env [10])) = Some true
  /\ outcome (exact dx 20 nowiden (TVar noq 0) (Void noq) (fresh_env [0])) = Some false /\ outcome (exact dx 20 nowiden (TVar noq 5) (Void noq) (fresh_env [5])) = Some true.
Proof. vm_compute. auto. Qed.
Lemma single_ok : forall c, (forall b, bound c = Some b -> tvars b = []) -> ok_env [c].
Proof.
  intros c H. split.
  - constructor; [intros []|constructor].
  - intros x y v [<-|[]] [<-|[]]; auto.
  - intros i. constructor. intros j (x & b & v & [<-|[]] & _ & B & V & _). rewrite (H b B) in V. destruct V.
Qed.

(** A type variable unified with a reference is bound to what is referred to, and the two are not equal. *)
Theorem C55_reference_refuted : exists d E t1 t2 E', ok_env E /\ exact d 20 nowiden t1 t2 E = Ret E' true /\ forall s, solves s E' -> val s t1 <> val s t2.
Proof.
  exists dx, (fresh_env [0]), (TVar noq 0), (Ref noq int). eexists. split; [apply single_ok; discriminate|]. split; [reflexivity|].
  intros s [_ H] K. destruct (H _ (or_introl eq_refl)) as [_ B]. specialize (B int 0 eq_refl (or_introl eq_refl)). cbn [val int setq] in K. rewrite B in K. discriminate K.
Qed.
Print Assumptions C55_reference_refuted.
(** An array without a dimension unifies with every array: unification is not transitive, and a variable bound to it takes two different types. *)
Theorem C55_array_without_dimension_refuted : exists d E t1 t2 t3 E', ok_env E /\ exact d 20 nowiden t1 t2 [] = Ret [] true /\ exact d 20 nowiden t2 t3 [] = Ret [] true /\ exact d 20 nowiden t1 t3 [] = Ret [] false
  /\ exact d 20 nowiden (TVar noq 5) t1 E = Ret E' true /\ exact d 20 nowiden (TVar noq 5) t3 E' = Ret E' true.
Proof.
  exists dx, [C 5 [5] (Some (Arr noq None int)) false], (Arr noq (Some 3) int), (Arr noq None int), (Arr noq (Some 4) int). eexists.
  split; [apply single_ok; intros b [= <-]; reflexivity|]. repeat split; reflexivity.
Qed.
Print Assumptions C55_array_without_dimension_refuted.
(** Pointers to functions: when the bases of two pointer parameters have different qualifiers they are not compared at all. *)
Theorem C55_function_pointer_refuted : exists d E t1 t2 E', ok_env E /\ (forall c, In c E -> allow c = false) /\ exact d 20 nowiden t1 t2 E = Ret E' true /\ forall s, solves s E' -> val s t1 <> val s t2.
Proof.
  set (f1 := Ptr noq (Fun noq [Ptr noq (const int)] [])). set (f2 := Ptr noq (Fun noq [Ptr noq float] [])).
  exists dx, [C 0 [0] (Some f1) false], (TVar noq 0), f2. eexists. split; [apply single_ok; intros b [= <-]; reflexivity|]. split; [intros c [<-|[]]; reflexivity|]. split; [reflexivity|].
  intros s [_ H] K. destruct (H _ (or_introl eq_refl)) as [_ B]. specialize (B _ 0 eq_refl (or_introl eq_refl)). cbn [val] in K. rewrite B in K. discriminate K.
Qed.
Print Assumptions C55_function_pointer_refuted.
(** A variable bound to a C enumeration is rebound to unsigned int, even where widening is not allowed; the other way round is refused. *)
Theorem C55_enumeration_refuted : exists d E t1 t2 E', ok_env E /\ (forall c, In c E -> allow c = false) /\ exact d 20 nowiden t1 t2 E = Ret E' true /\ (forall s, solves s E' -> ~ solves s E)
  /\ exists F F', ok_env F /\ class_of F 0 = Some ([0], Some t2) /\ exact d 20 nowiden t1 (Enm noq 0) F = Ret F' false.
Proof.
  exists dx, [C 0 [0] (Some (Enm noq 0)) false], (TVar noq 0), (Basic noq 7). eexists. split; [apply single_ok; intros b [= <-]; reflexivity|]. split; [intros c [<-|[]]; reflexivity|]. split; [reflexivity|]. split.
  - intros s [_ H] [_ K]. destruct (H _ (or_introl eq_refl)) as [_ B]. destruct (K _ (or_introl eq_refl)) as [_ B']. specialize (B _ 0 eq_refl (or_introl eq_refl)). specialize (B' _ 0 eq_refl (or_introl eq_refl)).
    rewrite B in B'. discriminate B'.
  - exists [C 0 [0] (Some (Basic noq 7)) false]. eexists. split; [apply single_ok; intros b [= <-]; reflexivity|]. split; reflexivity.
Qed.
Print Assumptions C55_enumeration_refuted.
(** A variable that must be complete is unified with one that need not be; the class is then bound to void. *)
Theorem C55_complete_variable_becomes_void_refuted : exists d E1 E2, sized d 0 = true /\ exact d 20 nowiden (TVar noq 0) (Void noq) (fresh_env [0; 5]) = Ret (fresh_env [0; 5]) false
  /\ exact d 20 nowiden (TVar noq 0) (TVar noq 5) (fresh_env [0; 5]) = Ret E1 true /\ exact d 20 nowiden (TVar noq 5) (Void noq) E1 = Ret E2 true /\ class_of E2 0 = Some ([5; 0], Some (Void noq)).
Proof. exists dx. do 2 eexists. repeat split; reflexivity. Qed.
Print Assumptions C55_complete_variable_becomes_void_refuted.
(** Variables without a class are compared by name only. *)
Theorem C55_closed_variables_by_name_refuted : exists d v w, v <> w /\ exact d 20 nowiden (TVar noq v) (TVar noq w) [] = Ret [] true.
Proof. exists dx, 20, 21. split; [discriminate|reflexivity]. Qed.
Print Assumptions C55_closed_variables_by_name_refuted.
(** Below the top of the types no qualifier may be widened: unless one of them is a variable, whether widening is allowed does not matter. *)
Theorem C55_widening_is_top_level : forall d f w w' t1 t2 E, opened E t1 = None -> opened E t2 = None -> exact d f w t1 t2 E = exact d f w' t1 t2 E.
Proof. intros d f w w' t1 t2 E H1 H2. destruct f; [reflexivity|]. cbn [exact]. rewrite H1, H2. reflexivity. Qed.
Print Assumptions C55_widening_is_top_level.
(** The hypotheses of the theorems above hold of new variables. *)
Lemma fresh_ok : forall d l, NoDup l -> ok_env (fresh_env l) /\ plain_env d (fresh_env l).
Proof.
  intros d l N. assert (B : forall c, In c (fresh_env l) -> exists v, c = C v [v] None true) by (intros c I; apply in_map_iff in I as (v & <- & _); eauto). split; [split|].
  - unfold fresh_env. rewrite map_map. cbn [id]. rewrite map_id. exact N.
  - intros c c' v I I' V V'. destruct (B c I) as [x ->], (B c' I') as [y ->]. destruct V as [<-|[]], V' as [<-|[]]. reflexivity.
  - intros i. constructor. intros j (c & b & v & I & _ & K & _). destruct (B c I) as [x ->]. discriminate K.
  - intros c b I K. destruct (B c I) as [x ->]. discriminate K.
Qed.
Example C55_ex_hypotheses : let t1 := Agg noq 1 [TVar noq 0; Ptr noq (TVar noq 1)] in let t2 := Agg noq 1 [Ptr noq (TVar noq 2); TVar noq 0] in
  exists s, solves s (fresh_env [0; 1; 2]) /\ val s t1 = val s t2 /\ s 1 = s 2 /\ s 7 = TVar noq 7.
Proof.
  intros t1 t2. set (d := D (fun v => v) (fun _ => Dtype) (fun _ => true) Nat.max Nat.eqb (fun _ => false) (fun _ => false)).
  destruct (fresh_ok d [0; 1; 2]) as [O P]. { repeat constructor; cbn [In]; intuition discriminate. }
  assert (N : names_ok d (fresh_env [0; 1; 2])) by (intros v w _ _ Q; exact Q).
  assert (L1 : plain d t1) by (cbn; auto). assert (L2 : plain d t2) by (cbn; auto).
  destruct (exact d 20 nowiden t1 t2 (fresh_env [0; 1; 2])) as [| | |E' b] eqn:R; try (vm_compute in R; discriminate R).
  destruct b; [|vm_compute in R; discriminate R].
  destruct (C55_success_has_instance d 20 t1 t2 _ E' O P N L1 L2 R) as (s & _ & H & Q & K).
  exists s. split; [exact H|]. split; [exact Q|]. split; [|apply K; reflexivity].
  cbn [val t1 t2 map] in Q. destruct H as [U _]. rewrite !setq_same in Q by apply U. injection Q as Q1 Q2. rewrite Q1 in Q2. injection Q2 as Q2. exact Q2.
Qed.

(** ** C56 *)
(** A class with two variables, that are in two classes with different bindings: combine succeeds, b is in two classes, and its old binding is out of sight. *)
Theorem C56_variable_in_two_classes_refuted : exists d E o E', ok_env E /\ ok_env o /\ (forall s, ~ (solves s E /\ solves s o)) /\ combine d 20 o E = Ret E' true /\ ~ ok_env E' /\ class_of E 1 <> class_of E' 1.
Proof.
  set (E := [C 0 [0] (Some int) false; C 1 [1] (Some float) false]). set (o := [C 0 [0; 1] None false]).
  exists dx, E, o. eexists. split; [|split; [|split; [|split; [reflexivity|split]]]].
  - split.
    + repeat constructor; cbn [In map id]; intuition discriminate.
    + intros c c' v [<-|[<-|[]]] [<-|[<-|[]]] [<-|[]] [K|[]]; try discriminate K; reflexivity.
    + intros i. constructor. intros j (c & b & v & [<-|[<-|[]]] & _ & [= <-] & [] & _).
  - apply single_ok. discriminate.
  - intros s [[_ H] [_ K]]. destruct (K _ (or_introl eq_refl)) as [Q _]. destruct (H _ (or_introl eq_refl)) as [_ B0]. destruct (H _ (or_intror (or_introl eq_refl))) as [_ B1].
    specialize (Q 0 1 (or_introl eq_refl) (or_intror (or_introl eq_refl))). specialize (B0 _ 0 eq_refl (or_introl eq_refl)). specialize (B1 _ 1 eq_refl (or_introl eq_refl)). rewrite B0, B1 in Q. discriminate Q.
  - intros O. assert (K := e_one O (C 0 [0; 1] (Some int) false) (C 1 [1] (Some float) false) 1 (or_introl eq_refl) (or_intror (or_introl eq_refl)) (or_intror (or_introl eq_refl)) (or_introl eq_refl)). discriminate K.
  - vm_compute. discriminate.
Qed.
Print Assumptions C56_variable_in_two_classes_refuted.
(** With the two variables in the other order the same happens to the other variable; bound to the same type, there are two classes as well. *)
Example C56_ex_order : class_of (after (combine dx 20 [C 0 [1; 0] None false] [C 0 [0] (Some int) false; C 1 [1] (Some float) false])) 0 = Some ([0], Some int)
  /\ map vars (after (combine dx 20 [C 0 [1; 0] None false] [C 0 [0] (Some int) false; C 1 [1] (Some float) false])) = [[0]; [1; 0]].
Proof. vm_compute. auto. Qed.
(** Both environments are without cycles, and the result has one: classes are copied from the other environment without looking at the bindings that mention them. *)
Theorem C56_cycle_refuted : exists d E o E', ok_env E /\ ok_env o /\ combine d 20 o E = Ret E' true /\ ~ acyclic E'.
Proof.
  set (E := [C 0 [0] None false; C 1 [1] (Some (Ptr noq (TVar noq 0))) false]). set (o := [C 0 [0] (Some (Ptr noq (TVar noq 2))) false; C 1 [2] (Some (Ptr noq (TVar noq 1))) false]).
  exists dx, E, o. eexists. split; [|split; [|split; [reflexivity|]]].
  - split.
    + repeat constructor; cbn [In map id]; intuition discriminate.
    + intros c c' v [<-|[<-|[]]] [<-|[<-|[]]] [<-|[]] [K|[]]; try discriminate K; reflexivity.
    + intros i. assert (A : forall j, ~ edge E 0 j) by (intros j (c & b & v & [<-|[<-|[]]] & Q & K & _); [discriminate K|discriminate Q]).
      constructor. intros j (c & b & v & [<-|[<-|[]]] & Q & K & V & L); [discriminate K|]. injection K as <-. destruct V as [<-|[]]. destruct L as (c & [<-|[<-|[]]] & [K|[]] & <-); [|discriminate K].
      constructor. intros k H. destruct (A k H).
  - split.
    + repeat constructor; cbn [In map id]; intuition discriminate.
    + intros c c' v [<-|[<-|[]]] [<-|[<-|[]]] [<-|[]] [K|[]]; try discriminate K; reflexivity.
    + intros i. assert (A : forall j, ~ edge o 1 j).
      { intros j (c & b & v & [<-|[<-|[]]] & Q & K & V & L); [discriminate Q|]. injection K as <-. destruct V as [<-|[]]. destruct L as (c & [<-|[<-|[]]] & [K|[]] & _); discriminate K. }
      constructor. intros j (c & b & v & I & Q & K & V & L). destruct L as (c' & I' & V' & <-).
      destruct I as [<-|[<-|[]]]; injection K as <-; destruct V as [<-|[]]; destruct I' as [<-|[<-|[]]]; destruct V' as [V'|[]]; try discriminate V'.
      constructor. intros k H. destruct (A k H).
  - intros A. specialize (A 0).
    match type of A with Acc (fun j i => edge ?F i j) _ => set (G := F) in A end.
    assert (S1 : edge G 0 2) by (exists (C 0 [0] (Some (Ptr noq (TVar noq 2))) false), (Ptr noq (TVar noq 2)), 2; repeat split; cbn; auto; exists (C 2 [2] (Some (Ptr noq (TVar noq 1))) false); cbn; auto).
    assert (S2 : edge G 2 1) by (exists (C 2 [2] (Some (Ptr noq (TVar noq 1))) false), (Ptr noq (TVar noq 1)), 1; repeat split; cbn; auto; exists (C 1 [1] (Some (Ptr noq (TVar noq 0))) false); cbn; auto).
    assert (S3 : edge G 1 0) by (exists (C 1 [1] (Some (Ptr noq (TVar noq 0))) false), (Ptr noq (TVar noq 0)), 0; repeat split; cbn; auto; exists (C 0 [0] (Some (Ptr noq (TVar noq 2))) false); cbn; auto).
    assert (L : forall i, Acc (fun j i => edge G i j) i -> i = 0 \/ i = 1 \/ i = 2 -> False).
    { clear A. induction 1 as [i _ IH]. intros [Z0|[Z0|Z0]]; rewrite Z0 in IH; [apply (IH 2 S1)|apply (IH 0 S3)|apply (IH 1 S2)]; auto. }
    apply (L 0 A). auto.
Qed.
Print Assumptions C56_cycle_refuted.
(** The check for cycles looks for a variable without a class in bindings that have just been made cyclic, and never ends. *)
Theorem C56_combine_terminates_refuted : exists d E o, ok_env E /\ ok_env o /\ forall f, combine d f o E = Fuel.
Proof.
  set (E := [C 0 [0] None false; C 1 [1] (Some (Ptr noq (TVar noq 0))) false]). set (o := [C 0 [2; 0] (Some (Ptr noq (TVar noq 1))) false]).
  exists dx, E, o. split; [|split].
  - split.
    + repeat constructor; cbn [In map id]; intuition discriminate.
    + intros c c' v [<-|[<-|[]]] [<-|[<-|[]]] [<-|[]] [K|[]]; try discriminate K; reflexivity.
    + intros i. assert (A : forall j, ~ edge E 0 j) by (intros j (c & b & v & [<-|[<-|[]]] & Q & K & _); [discriminate K|discriminate Q]).
      constructor. intros j (c & b & v & [<-|[<-|[]]] & Q & K & V & L); [discriminate K|]. injection K as <-. destruct V as [<-|[]]. destruct L as (c & [<-|[<-|[]]] & [K|[]] & <-); [|discriminate K].
      constructor. intros k H. destruct (A k H).
  - split.
    + repeat constructor; cbn [In map id]; intuition discriminate.
    + intros c c' v [<-|[]] [<-|[]] _ _. reflexivity.
    + intros i. constructor. intros j (c & b & v & [<-|[]] & _ & [= <-] & V & c' & I & K & _). destruct V as [<-|[]]. destruct I as [<-|[]]. destruct K as [K|[K|[]]]; discriminate K.
  - intros f. set (G := [C 0 [0] (Some (Ptr noq (TVar noq 1))) false; C 1 [1] (Some (Ptr noq (TVar noq 0))) false]).
    assert (L : forall f, occ f G [2] (Ptr noq (TVar noq 0)) = None /\ occ f G [2] (Ptr noq (TVar noq 1)) = None).
    { induction f0 as [|g [I0 I1]]; [auto|]. split; [change (orall [occ g G [2] (Ptr noq (TVar noq 1))] = None); rewrite I1|change (orall [occ g G [2] (Ptr noq (TVar noq 0))] = None); rewrite I0]; reflexivity. }
    set (c := C 0 [2; 0] (Some (Ptr noq (TVar noq 1))) false). assert (M : merge_one dx f c E = Fuel).
    { transitivity (bind (bind (Ret G true) (fun E (ok : bool) => if ok then emplace dx f 0 [2; 0] E else Ret E false)) (fun E (ok : bool) => if ok then later dx f 0 [] E else Ret E false)); [reflexivity|].
      cbn [bind]. transitivity (match match occ f G [2] (Ptr noq (TVar noq 1)) with None => Fuel | Some true => Ret G false
        | Some false => emplace dx f 0 [0] (put G (C 0 (add_var [0] 2) (Some (Ptr noq (TVar noq 1))) false)) end with Ret E ok => if ok then later dx f 0 [] E else Ret E false | Fuel => Fuel | Assert => Assert | Dangling => Dangling end); [reflexivity|].
      rewrite (proj2 (L f)). reflexivity. }
    change (combine dx f o E) with (bind (merge_one dx f c E) (fun E (ok : bool) => if ok then combine_ dx f [] E else Ret E false)). rewrite M. reflexivity.
Qed.
Print Assumptions C56_combine_terminates_refuted.
(** The answer depends on which class comes first. *)
Theorem C56_order_refuted : exists d E o o' E', ok_env E /\ Permutation.Permutation o o' /\ combine d 20 o E = Ret E false /\ combine d 20 o' E = Ret E' true.
Proof.
  exists dx, [C 0 [0] (Some (Ptr noq int)) false], [C 0 [0] (Some (Ptr noq (TVar noq 1))) false; C 1 [1] None false], [C 1 [1] None false; C 0 [0] (Some (Ptr noq (TVar noq 1))) false].
  eexists. split; [apply single_ok; intros b [= <-]; reflexivity|]. split; [constructor|]. split; reflexivity.
Qed.
Print Assumptions C56_order_refuted.
(** Environments that fit: the result has one class per variable, no cycle, the variables of both, and exactly the equations of both. Missing: environments that do not fit, where the theorems above refute it; failure. *)
Theorem C56_combine_partial : forall d f o E E', ok_env E -> plain_env d E -> names_ok d E -> ok_env o -> fit d E o -> combine d f o E = Ret E' true ->
  ok_env E' /\ (forall v, lookup E' v = None <-> lookup E v = None /\ lookup o v = None) /\ forall s, solves s E' <-> solves s E /\ solves s o.
Proof.
  intros d f o E E' O PE NE OO F H. destruct E as [|x E].
  - injection H as <-. split; [exact OO|]. split; [intros v; cbn [lookup find]; tauto|]. intros s. split; [intros K; split; auto; split; [apply K|intros c []]|intros [_ K]; exact K].
  - destruct (combine_ok d f o (x :: E) E' O PE NE (ok_okw _ OO) F H) as (A1 & _ & _ & _ & A5 & A6). auto.
Qed.
Print Assumptions C56_combine_partial.
(** {0,1} = pointer to 2, {2} combined with {3} = int, {1,4} = pointer to 3 *)
Definition ex_E : env := [C 0 [0; 1] (Some (Ptr noq (TVar noq 2))) false; C 1 [2] None false].
Definition ex_o : env := [C 0 [3] (Some int) false; C 1 [4; 1] (Some (Ptr noq (TVar noq 3))) false].
Example C56_ex_combine : let E' := after (combine dx 20 ex_o ex_E) in outcome (combine dx 20 ex_o ex_E) = Some true
  /\ class_of E' 4 = Some ([0; 1; 4], Some (Ptr noq (TVar noq 2))) /\ class_of E' 2 = Some ([3; 2], Some int) /\ fit dx ex_E ex_o.
Proof.
  split; [reflexivity|]. split; [reflexivity|]. split; [reflexivity|]. split.
  - intros c b [<-|[<-|[]]] [= <-]; cbn; auto.
  - intros c u v [<-|[<-|[]]]; cbn [vars In].
    + intros [<-|[]] _ H. exfalso. apply H. reflexivity.
    + intros [<-|[<-|[]]] [<-|[<-|[]]] H K; try reflexivity; exfalso; [apply H|apply K]; reflexivity.
  - intros x b c v [<-|[<-|[]]] [= <-] _ _ [<-|[]]. discriminate.
  - intros o1 c o2 b c' v Q B I Iv Ib. destruct o1 as [|x o1]; [injection Q as <- <-|destruct o1 as [|y o1]; [injection Q as _ <- <-|destruct o1; discriminate Q]].
    + injection B as <-. destruct Ib.
    + injection B as <-. destruct I as [<-|[]]. destruct Ib as [<-|[]]. destruct Iv as [K|[K|[]]]; discriminate K.
  - intros c [[<-|[<-|[]]]|[<-|[<-|[]]]]; reflexivity.
Qed.
