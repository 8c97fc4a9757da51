From Coq Require Import Ascii String List Bool Arith Lia.
From Verif.Mangle Require Import Model Spec Proofs.
Import ListNotations.
Open Scope string_scope.
Open Scope list_scope.
(** Declarations without forall, in a program where an aggregate is either always or never used with parameters, get the same name exactly when they have the same name and the same type as far as overloading goes. *)
Theorem C53_injective : forall md over g d1 d2, builtin_ok g = true -> wfd g d1 = true -> wfd g d2 = true -> mono (dty d1) = true -> mono (dty d2) = true -> qualok (dty d1) = true -> qualok (dty d2) = true ->
  (mangle_decl md over d1 = mangle_decl md over d2 <-> out_name (dname d1) = out_name (dname d2) /\ norm md false (dty d1) = norm md false (dty d2) /\ (over = true -> dlink d1 = dlink d2)).
Proof.
  intros md over g d1 d2 B W1 W2 M1 M2 Q1 Q2. rewrite (decl_iff md over g) by auto. unfold erased. rewrite (erase_norm md false (dty d1)), (erase_norm md false (dty d2)); auto; try (right; auto; fail). cbn [fst]. split; intros (A & C & D); repeat split; auto; congruence.
Qed.
Print Assumptions C53_injective.
(** As types, for the tables of the compiler (forall clauses and qualifiers do not count there). *)
Theorem C53_type_mode : forall g t1 t2, let md := Md true true in builtin_ok g = true -> wf g t1 = true -> wf g t2 = true -> qualok t1 = true -> qualok t2 = true ->
  (fst (mangle md false false [] t1) = fst (mangle md false false [] t2) <-> norm md false t1 = norm md false t2).
Proof.
  intros g t1 t2 md B W1 W2 Q1 Q2. rewrite !mangle_enc. cbn [fst]. pose proof (all_kept md g B t1 false false [] W1) as K1. pose proof (all_kept md g B t2 false false [] W2) as K2. rewrite (erase_norm md false t1), (erase_norm md false t2) in *; auto; try (left; reflexivity). cbn [fst forallb] in *. rewrite andb_true_r in K1, K2. rewrite !encs_one. split; [|congruence].
  intros H. apply (enc_prefix (gen md g) _ _ [] []); auto; try exact Logic.I. rewrite !app_nil_r. auto.
Qed.
Print Assumptions C53_type_mode.
(** The name of one type is never the beginning of the name of another. *)
Theorem C53_prefix : forall md g t1 t2 s, builtin_ok g = true -> wf g t1 = true -> wf g t2 = true -> heads nodig s -> fst (mangle md false false [] t1) = fst (mangle md false false [] t2) ++ s -> s = [].
Proof.
  intros md g t1 t2 s B W1 W2 S H. rewrite !mangle_enc in H. cbn [fst] in H. pose proof (all_kept md g B t1 false false [] W1) as K1. pose proof (all_kept md g B t2 false false [] W2) as K2. pose proof (proj2 (all_sized md t1 false false []) eq_refl) as S1. pose proof (proj2 (all_sized md t2 false false []) eq_refl) as S2.
  destruct (fst (erase md false false [] t1)) as [|a [|]]; try discriminate S1. destruct (fst (erase md false false [] t2)) as [|b [|]]; try discriminate S2. cbn [forallb] in K1, K2. rewrite andb_true_r in K1, K2. rewrite !encs_one in H. rewrite <- (app_nil_r (enc a)) in H. apply (enc_prefix (gen md g)) in H; auto; [|exact Logic.I]. symmetry. apply H.
Qed.
Print Assumptions C53_prefix.
(** With forall clauses, exactly what is kept: the numbers of variables, the assertions, and the kind of each variable. *)
Theorem C53_kept : forall md over g d1 d2, builtin_ok g = true -> wfd g d1 = true -> wfd g d2 = true ->
  (mangle_decl md over d1 = mangle_decl md over d2 <-> out_name (dname d1) = out_name (dname d2) /\ erased md (dty d1) = erased md (dty d2) /\ (over = true -> dlink d1 = dlink d2)).
Proof. intros. apply (decl_iff md over g); auto. Qed.
Print Assumptions C53_kept.
(** So functions with one forall clause and at most one variable of each kind are distinguished up to renaming the variables. Missing: several variables of a kind, nested clauses. *)
Theorem C53_forall_partial : forall over gp g d1 d2, let md := Md false gp in builtin_ok g = true -> wfd g d1 = true -> wfd g d2 = true -> prenex g (dty d1) -> prenex g (dty d2) ->
  (mangle_decl md over d1 = mangle_decl md over d2 <-> out_name (dname d1) = out_name (dname d2) /\ same_forall md (dty d1) (dty d2) /\ (over = true -> dlink d1 = dlink d2)).
Proof.
  intros over gp0 g d1 d2 md B W1 W2 P1 P2. rewrite (decl_iff md over g) by auto. unfold wfd in *. apply andb_prop in W1, W2. rewrite (forall_iff md g); tauto.
Qed.
Print Assumptions C53_forall_partial.
(** The output names of operators are different. *)
Theorem C53_operators : forall a b, In a (map fst ops) -> In b (map fst ops) -> out_name #a = out_name #b -> a = b.
Proof.
  assert (T : forallb (fun a => forallb (fun b => implb (eqs (out_name #a) (out_name #b)) (String.eqb a b)) (map fst ops)) (map fst ops) = true) by (vm_compute; reflexivity).
  intros a b A B H. rewrite forallb_forall in T. specialize (T a A). cbv beta in T. rewrite forallb_forall in T. specialize (T b B). cbv beta in T. rewrite (proj2 (eqs_iff _ _) H) in T. apply String.eqb_eq. auto.
Qed.
Print Assumptions C53_operators.
Definition full : mode := Md false true.
Definition d_ (n : string) (t : ty) : decl := De #n t Plain.
Definition int : ty := Basic noq 6.
Definition tv (n : string) : ty := Inst TypeI noq #n [].
Definition st (n : string) (ps : list ty) : ty := Inst Struct noq #n ps.
Definition g0 : generic := fun _ _ => false.
(** Two variables of a kind are not told apart: forall( T *, S * ) void f( T *, S *, T * ) and ... ( T *, S *, S * ), which no renaming makes equal. *)
Theorem C53_variables_refuted : exists d1 d2, wfd g0 d1 = true /\ wfd g0 d2 = true /\ mangle_decl full true d1 = mangle_decl full true d2 /\
  exists fa ps1 ps2, dty d1 = Fun fa [] [] ps1 /\ dty d2 = Fun fa [] [] ps2 /\ forall r, map (norm full true) (map (rename r) ps1) <> map (norm full true) ps2.
Proof.
  set (fa := [(#"T", Dtype); (#"S", Dtype)]). set (p := fun n => Ptr noq (tv n)). exists (d_ "f" (Fun fa [] [] [p "T"; p "S"; p "T"])), (d_ "f" (Fun fa [] [] [p "T"; p "S"; p "S"])).
  split; [reflexivity|]. split; [reflexivity|]. split; [reflexivity|]. exists fa, [p "T"; p "S"; p "T"], [p "T"; p "S"; p "S"]. split; [reflexivity|]. split; [reflexivity|]. intros r H. cbn in H. injection H as A B C. rewrite A in C. discriminate C.
Qed.
Print Assumptions C53_variables_refuted.
(** The type variables of a parameter's forall clause stay known after it: an outer type of the same name in the next parameter counts as that variable, so that renaming the inner variable changes the name. *)
Theorem C53_scope_refuted : exists d1 d2, wfd g0 d1 = true /\ wfd g0 d2 = true /\ mangle_decl full true d1 <> mangle_decl full true d2 /\
  exists n1 n2 p, dty d1 = Fun [] [] [] [Ptr noq (Fun [(n1, Dtype)] [] [] [Ptr noq (Inst TypeI noq n1 [])]); p] /\ dty d2 = Fun [] [] [] [Ptr noq (Fun [(n2, Dtype)] [] [] [Ptr noq (Inst TypeI noq n2 [])]); p].
Proof.
  set (f := fun n => Fun [] [] [] [Ptr noq (Fun [(#n, Dtype)] [] [] [Ptr noq (Inst TypeI noq #n [])]); tv "T"]). exists (d_ "f" (f "T")), (d_ "f" (f "S")). split; [reflexivity|]. split; [reflexivity|]. split; [intros H; apply (f_equal (fun s => eqs s (mangle_decl full true (d_ "f" (f "S"))))) in H; vm_compute in H; discriminate H|]. exists #"T", #"S", (tv "T"). auto.
Qed.
Print Assumptions C53_scope_refuted.
(** Without the condition on parameters the encoding is ambiguous: A( int, int ) and A, B( int ) and B. *)
Theorem C53_parameters_refuted : exists g1 g2 d1 d2, wfd g1 d1 = true /\ wfd g2 d2 = true /\ mono (dty d1) = true /\ mono (dty d2) = true /\ qualok (dty d1) = true /\ qualok (dty d2) = true /\ norm full false (dty d1) <> norm full false (dty d2) /\ mangle_decl full true d1 = mangle_decl full true d2.
Proof.
  exists (fun _ n => eqs n #"A"), (fun _ n => eqs n #"B"), (d_ "f" (Fun [] [] [] [Fun [] [] [] [Fun [] [] [st "A" [int; int]] [st "B" []]; int]])), (d_ "f" (Fun [] [] [] [Fun [] [] [] [Fun [] [] [st "A" []] [int; int]]; st "B" [int]])). repeat split; try reflexivity. discriminate.
Qed.
Print Assumptions C53_parameters_refuted.
(** A qualified type as a parameter inside a qualified type has no brackets: A( B.C, D ).X and A( B, C.D ).X. *)
Theorem C53_qualified_refuted : exists g d1 d2, builtin_ok g = true /\ wfd g d1 = true /\ wfd g d2 = true /\ mono (dty d1) = true /\ mono (dty d2) = true /\ dty d1 <> dty d2 /\ norm full false (dty d1) <> norm full false (dty d2) /\ mangle_decl full true d1 = mangle_decl full true d2.
Proof.
  set (s := fun n => st n []). exists (fun k n => match k with Struct => eqs n #"A" | _ => false end), (d_ "x" (Qual (st "A" [Qual (s "B") (s "C"); s "D"]) (s "X"))), (d_ "x" (Qual (st "A" [s "B"; Qual (s "C") (s "D")]) (s "X"))). repeat split; try reflexivity; discriminate.
Qed.
Print Assumptions C53_qualified_refuted.
(** The output name of an operator is a C identifier that a program may use. *)
Theorem C53_operator_name_refuted : exists d1 d2, wfd g0 d1 = true /\ wfd g0 d2 = true /\ dname d1 <> dname d2 /\ mangle_decl full true d1 = mangle_decl full true d2.
Proof. exists (d_ "?+?" (Fun [] [] [int] [int; int])), (d_ "_operator_add" (Fun [] [] [int] [int; int])). repeat split; try reflexivity. discriminate. Qed.
Print Assumptions C53_operator_name_refuted.
Example C53_ex_fun : mangle_decl full true (d_ "?+?" (Fun [] [] [int] [Basic (Q true false false false) 6; Ref noq (Ptr noq (Basic (Q true false false false) 1))])) = #"_X13_operator_addFi_iPKc_".
Proof. reflexivity. Qed.
Example C53_ex_gen : mangle_decl full true (De #"p" (Arr noq 10 (st "pair" [int; Ptr noq (Fun [] [] [] [])])) AutoGen) = #"_X1pA0S4pair_iFv___autogen__".
Proof. reflexivity. Qed.
Example C53_ex_forall : mangle_decl full true (d_ "max" (Fun [(#"T", Dtype)] [(#"?<?", Fun [] [] [int] [tv "T"; tv "T"])] [tv "T"] [tv "T"; tv "T"])) = #"_X3maxQ1_0_0_1__X14_operator_lessFi_BD0BD0__FBD0_BD0BD0_".
Proof. reflexivity. Qed.
Example C53_ex_same : norm full false (Fun [] [] [] [Basic (Q true false false false) 6]) = norm full false (Fun [] [] [Void noq] [Ref noq int]).
Proof. reflexivity. Qed.
