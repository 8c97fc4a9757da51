From Coq Require Import Ascii String List Bool Arith ZArith Lia.
From Verif.Mangle Require Import Model Spec Proofs.
From Verif.Demangle Require Import Model Spec Proofs.
Import ListNotations.
Open Scope string_scope.
Open Scope list_scope.
Open Scope Z_scope.
(** Demangling the scoped name of a declaration whose type is simple gives its name and its type as far as the name tells it. Missing: nested function types, instances with parameters, several results, assertions,
    mutex references, qualified types; see the refutations. *)
Theorem C54_roundtrip_partial : forall over d level, source_name (dname d) -> simple (dty d) = true -> Z.of_nat (length (binders (dty d))) < 2 ^ 64 -> size (scoped over d level) < 2 ^ 32 ->
  exists f0, forall f, (f0 <= f)%nat -> demangle f (scoped over d level) = Named (dname d) (seen (show_vars (binders (dty d))) false (dty d)).
Proof. exact roundtrip. Qed.
Print Assumptions C54_roundtrip_partial.
(** That type is the declared one as far as overloading goes, with the variables renamed; a reference is shown as the type it refers to. *)
Theorem C54_type : forall t, simple t = true -> noref t = true -> norm full false (seen (show_vars (binders t)) false t) = norm full false (rename (show_vars (binders t)) t).
Proof. intros. apply simple_norm; auto. Qed.
Print Assumptions C54_type.
(** Without a forall clause nothing is renamed. *)
Theorem C54_mono : forall over d level, source_name (dname d) -> simple (dty d) = true -> binders (dty d) = [] -> noref (dty d) = true -> size (scoped over d level) < 2 ^ 32 ->
  exists f0 t, norm full false t = norm full false (dty d) /\ forall f, (f0 <= f)%nat -> demangle f (scoped over d level) = Named (dname d) t.
Proof.
  intros over d level N S B R Z0. destruct (roundtrip over d level N S) as (f0 & H); auto; [rewrite B; reflexivity|]. exists f0, (seen (show_vars (binders (dty d))) false (dty d)). split; auto. rewrite C54_type by auto. rewrite B. assert (I : forall l, Forall (fun t => rename (show_vars []) t = t) l -> map (rename (show_vars [])) l = l) by (induction 1; cbn [map]; congruence).
  f_equal. generalize (dty d) as t. induction t as [q|q k|q b IH|q e b IH|q b IH|fa asr rs ps A R1 P|k q n ps IH|q ts IH|q|q|q|p c IP IC] using ty_ind2; cbn [rename]; try congruence.
  - rewrite (I rs), (I ps) by auto. f_equal. clear - A. induction A as [|[n x] l E _ IH]; auto. cbn [map fst snd] in *. congruence.
  - rewrite (I ps) by auto. destruct k; auto.
  - rewrite (I ts) by auto. auto.
Qed.
Print Assumptions C54_mono.
(** A string that does not start with _X, or does not end in a digit, is returned unchanged. *)
Theorem C54_unchanged : forall f s, (forall r, s <> #"_X" ++ r) \/ (forall r c, s = r ++ [c] -> isdigit c = false) -> demangle f s = Same.
Proof.
  intros f s H. unfold demangle, strip. destruct (size s <? 4) eqn:L; auto. destruct H as [H|H].
  - destruct (is_prefix s 0 #"_X") as [j|] eqn:E; auto. exfalso. unfold is_prefix, rest in E. cbn [Z.to_nat skipn] in E. destruct s as [|a [|b s]]; cbn [prefixb s_ list_ascii_of_string] in E; try discriminate E; [rewrite andb_false_r in E; discriminate E|]. destruct (Ascii.eqb "_" a) eqn:A; [|discriminate E]. destruct (Ascii.eqb "X" b) eqn:B; [|discriminate E]. apply Ascii.eqb_eq in A, B. subst. apply (H s). reflexivity.
  - destruct (is_prefix s 0 #"_X"); auto. assert (D : isdig (back s) = false). { destruct s as [|c s] using rev_ind; [reflexivity|]. rewrite back_app. apply (H s c). auto. } rewrite D. auto.
Qed.
Print Assumptions C54_unchanged.
(** Demangling ends on every string whose numbers have at most 18 digits. *)
Theorem C54_ends : forall s f, size s < 2 ^ 32 -> (forall a d b, s = a ++ d ++ b -> alldig d = true -> (length d <= 18)%nat) -> (2 * length s + 1 <= f)%nat -> demangle f s <> NoFuel.
Proof. exact demangle_ends. Qed.
Print Assumptions C54_ends.
(** With a longer number it may not end: the position wraps round modulo 2^64 and the same parameter is read again and again. *)
Theorem C54_ends_refuted : exists s, forall f, demangle f s = NoFuel.
Proof.
  set (s := #"_X1fFv_S18446744073709551595_1"). exists s. intros f. unfold demangle. assert (E : exists n s2 i, strip s = Some (n, s2, i) /\ n = #"f" /\ s2 = #"_X1fFv_S18446744073709551595" /\ i = 4) by (do 3 eexists; vm_compute; auto). destruct E as (n & s2 & i & -> & -> & -> & ->). clear s. set (s := #"_X1fFv_S18446744073709551595").
  assert (P : forall g acc, params g s 7 acc = Fuel). { induction g as [|g IH]; intros acc; auto. cbn [params]. assert (D : done s 7 = false) by reflexivity. assert (X : expect s 7 (ch "_") = None) by reflexivity. rewrite D, X. destruct g as [|g]; [reflexivity|]. assert (Y : exists t, parse (S g) s 7 = Got t 7) by (eexists; vm_compute; reflexivity). destruct Y as (t & ->). cbn [bind]. apply IH. }
  assert (R : parse f s 4 = Fuel); [|rewrite R; auto]. destruct f as [|f]; auto. rewrite parse_S. assert (D : done s 4 = false) by reflexivity. assert (F : forall_ s 4 = Some 4) by reflexivity. assert (QQ : quals_ (S (length s)) s 4 noq = (noq, 4)) by (vm_compute; reflexivity). assert (PK : pick parsers s 4 = Some (PFun, 5)) by (vm_compute; reflexivity). rewrite D, F, QQ, PK. cbn [act]. assert (D5 : done s 5 = false) by reflexivity. rewrite D5. destruct f as [|f]; auto. assert (Y : exists t, parse (S f) s 5 = Got t 6) by (eexists; vm_compute; reflexivity). destruct Y as (t & ->). cbn [bind]. assert (X : expect s 6 (ch "_") = Some 7) by reflexivity. rewrite X, P. auto.
Qed.
Print Assumptions C54_ends_refuted.
Definition dd (n : string) (t : ty) : decl := De #n t Plain.
Definition int : ty := Basic noq 6.
Definition dbl : ty := Basic noq 24.
Ltac more f := do 20 (destruct f as [|f]; [lia|]); vm_compute; reflexivity.
(** The end of a nested function type is not consumed, so that the parameters after it are lost: two functions of different types are shown alike. *)
Theorem C54_nested_refuted : exists d1 d2 t, mono (dty d1) = true /\ mono (dty d2) = true /\ norm full false (dty d1) <> norm full false (dty d2) /\
  forall f, (20 <= f)%nat -> demangle f (scoped true d1 1) = Named #"f" t /\ demangle f (scoped true d2 1) = Named #"f" t.
Proof.
  exists (dd "f" (Fun [] [] [] [Ptr noq (Fun [] [] [int] [int]); dbl])), (dd "f" (Fun [] [] [] [Ptr noq (Fun [] [] [int] [int]); int; int])). eexists. split; [reflexivity|]. split; [reflexivity|]. split; [discriminate|]. intros f L. split; more f.
Qed.
Print Assumptions C54_nested_refuted.
(** The parameters of a generic aggregate, and the function parameters after it, are lost. *)
Theorem C54_generic_refuted : exists d1 d2 t, mono (dty d1) = true /\ mono (dty d2) = true /\ norm full false (dty d1) <> norm full false (dty d2) /\
  forall f, (20 <= f)%nat -> demangle f (scoped true d1 1) = Named #"f" t /\ demangle f (scoped true d2 1) = Named #"f" t.
Proof.
  exists (dd "f" (Fun [] [] [] [Inst Struct noq #"A" [int]; dbl])), (dd "f" (Fun [] [] [] [Inst Struct noq #"A" [dbl]])). eexists. split; [reflexivity|]. split; [reflexivity|]. split; [discriminate|]. intros f L. split; more f.
Qed.
Print Assumptions C54_generic_refuted.
(** Functions with several results and functions with assertions are not demangled at all. *)
Theorem C54_results_refuted : exists d1 d2, (forall f, (20 <= f)%nat -> demangle f (scoped true d1 1) = Same) /\ (forall f, (20 <= f)%nat -> demangle f (scoped true d2 1) = Same) /\ length (match dty d1 with Fun _ _ rs _ => rs | _ => [] end) = 2%nat /\ length (match dty d2 with Fun _ asr _ _ => asr | _ => [] end) = 1%nat.
Proof.
  exists (dd "f" (Fun [] [] [int; int] [])), (dd "f" (Fun [(#"T", Dtype)] [(#"g", Fun [] [] [] [])] [] [])). repeat split; intros f L; more f.
Qed.
Print Assumptions C54_results_refuted.
(** The name of a qualified type, and of a qualified pointer to a polymorphic function, aborts the demangler. *)
Theorem C54_abort_refuted : exists d1 d2, wfd (fun _ _ => false) d1 = true /\ wfd (fun _ _ => false) d2 = true /\ mono (dty d1) = true /\ (forall f, (20 <= f)%nat -> demangle f (scoped true d1 1) = Aborts) /\ (forall f, (20 <= f)%nat -> demangle f (scoped true d2 1) = Aborts).
Proof.
  exists (dd "x" (Qual (Inst Struct noq #"A" []) (Inst Struct noq #"B" []))), (dd "x" (Ptr (Q true false false false) (Fun [(#"T", Dtype)] [] [] []))). repeat split; intros f L; more f.
Qed.
Print Assumptions C54_abort_refuted.
Example C54_ex : forall f, (20 <= f)%nat -> demangle f #"_X13_operator_addFi_iPKc__1" = Named #"?+?" (Fun [] [] [int] [int; Ptr noq (Basic (Q true false false false) 1)]).
Proof. intros f L. more f. Qed.
Example C54_ex_scoped : scoped true (dd "?+?" (Fun [] [] [int] [int; Ptr noq (Basic (Q true false false false) 1)])) 1 = #"_X13_operator_addFi_iPKc__1".
Proof. reflexivity. Qed.
Example C54_ex_forall : forall f, (20 <= f)%nat -> demangle f (scoped true (dd "id" (Fun [(#"T", Dtype)] [] [Inst TypeI noq #"T" []] [Inst TypeI noq #"T" []])) 12) = Named #"id" (Fun [] [] [Inst TypeI noq #"DT0" []] [Inst TypeI noq #"DT0" []]).
Proof. intros f L. more f. Qed.
Example C54_ex_simple : simple (Fun [] [] [Tuple noq [int; dbl]] [Ref noq (Arr noq 7 int); Inst Enum noq #"Colour" []; VarArgs noq]) = true.
Proof. reflexivity. Qed.
