From Coq Require Import List Bool Arith.
From Verif.InitCursor Require Import Model Spec Proofs.
Import ListNotations.
(** int, double; struct A { int x; int y; }, struct B { A a0; A a1; }, tests/designations.cfa *)
Definition tint := Scal 0.
Definition tdouble := Scal 1.
Definition tA := Agg false 1 [tint; tint].
Definition tB := Agg false 2 [tA; tA].
Definition s := Single Sc.
Definition u (i : init) : path * init := ([], i).

(** C98: for the initializers described in Spec.fine every expression is resolved against the subobject that C initializes with it, and every list is entered with its type. *)
Theorem C98_cursor : forall i t lg, wf t = true -> spec_object i t = Some lg -> fine_object i t = true -> resolve i t = Ok lg.
Proof. exact resolve_spec. Qed.
Print Assumptions C98_cursor.
(** B b1 = { {2, 3}, {4} }; B b2 = { 2, 3, 4 }; B b3 = { .a1 = {3}, .a0 = {2} }; b4 = { .a0.y = 2, 3, .a1 = A-value, .a0 = A-value }; A pts[10] = { [2].y = 34, [2].x = 35, [0].x = 55, 7, 8 } *)
Example C98_cursor_nested : resolve (Lst [u (Lst [u s; u s]); u (Lst [u s])]) tB = Ok (LL tB [LL tA [LS [0] tint; LS [1] tint]; LL tA [LS [0] tint]]).
Proof. apply C98_cursor; vm_compute; reflexivity. Qed.
Example C98_cursor_designators : resolve (Lst [([0; 1], s); u s; ([1], Single (Ag 1)); ([0], Single (Ag 1)); ([1], Lst [([1], s); ([0], s)])]) tB
  = Ok (LL tB [LS [0; 1] tint; LS [1; 0] tint; LS [1] tA; LS [0] tA; LL tA [LS [1] tint; LS [0] tint]]).
Proof. apply C98_cursor; vm_compute; reflexivity. Qed.
Example C98_cursor_points : resolve (Lst [([2; 1], s); ([2; 0], s); ([0; 0], s); u s; u (Lst [u s]); ([4], Lst [u s; u s]); u s]) (Arr 10 tA)
  = Ok (LL (Arr 10 tA) [LS [2; 1] tint; LS [2; 0] tint; LS [0; 0] tint; LS [0; 1] tint; LL tA [LS [0] tint]; LL tA [LS [0] tint; LS [1] tint]; LS [5; 0] tint]).
Proof. apply C98_cursor; vm_compute; reflexivity. Qed.
(** C98: when all braces are omitted and there are no designators, for all types: the scalars one after the other. *)
Theorem C98_flat : forall n t lg, wf t = true -> spec_object (Lst (repeat ([], Single Sc) n)) t = Some lg -> resolve (Lst (repeat ([], Single Sc) n)) t = Ok lg.
Proof. exact flat_resolve. Qed.
Print Assumptions C98_flat.
Example C98_flat_example : resolve (Lst (repeat (u s) 5)) (Agg false 5 [Arr 2 tA; Agg true 4 [tdouble; tA]; tint])
  = Ok (LL (Agg false 5 [Arr 2 tA; Agg true 4 [tdouble; tA]; tint]) [LS [0; 0; 0] tint; LS [0; 0; 1] tint; LS [0; 1; 0] tint; LS [0; 1; 1] tint; LS [1; 0] tdouble]).
Proof. apply C98_flat; vm_compute; reflexivity. Qed.
(** C98: whatever the initializer, if the resolver gets through it every type is the type of the designated subobject. *)
Theorem C98_typed : forall i t lg, resolve i t = Ok lg -> typed t lg.
Proof. exact resolve_typed. Qed.
Print Assumptions C98_typed.
Example C98_typed_example : typed tB (LL tB [LS [0; 1] tint]) /\ ~ typed tB (LL tB [LS [0; 1] tA]).
Proof. split; [apply (C98_typed (Lst [([0; 1], s)])); reflexivity|]. cbn. intros [_ [E _]]. discriminate. Qed.

(** C98, not so: A-values for the members of a structure or the elements of an array: after the first the cursor is at its second member, the second A-value is rejected. *)
Theorem C98_value_refuted : ~ (forall i t lg, wf t = true -> spec_object i t = Some lg -> resolve i t = Ok lg).
Proof. intros H. specialize (H (Lst [u (Single (Ag 1)); u (Single (Ag 1))]) (Arr 2 tA) _ eq_refl eq_refl). vm_compute in H. discriminate. Qed.
Print Assumptions C98_value_refuted.
Example C98_value_int : resolve (Lst [u (Single (Ag 1)); u s]) tB = Ok (LL tB [LS [0] tA; LS [0; 1] tint]) /\ spec_object (Lst [u (Single (Ag 1)); u s]) tB = Some (LL tB [LS [0] tA; LS [1; 0] tint]).
Proof. split; reflexivity. Qed.
(** C98, not so: braces in a member that has been begun, or after a designator of a member of a member, are taken for the member: B b = { .a0.y = { 2 } }. *)
Theorem C98_brace_refuted : ~ (forall d t lg lg', wf t = true -> spec_object (Lst [(d, Lst [u s])]) t = Some lg -> resolve (Lst [(d, Lst [u s])]) t = Ok lg' -> lg = lg').
Proof. intros H. specialize (H [0; 1] tB _ _ eq_refl eq_refl eq_refl). vm_compute in H. discriminate. Qed.
Print Assumptions C98_brace_refuted.
(** C98, not so: a designator of an element keeps the place within the element: A a[2] = { 1, [1] = 2 } takes a[1].y for a[1].x. *)
Theorem C98_index_refuted : ~ (forall d t lg lg', wf t = true -> spec_object (Lst [u s; (d, s)]) t = Some lg -> resolve (Lst [u s; (d, s)]) t = Ok lg' -> lg = lg').
Proof. intros H. specialize (H [1] (Arr 2 tA) _ _ eq_refl eq_refl eq_refl). vm_compute in H. discriminate. Qed.
Print Assumptions C98_index_refuted.
(** C98, not so: a designator after the last element of an array uses a null pointer: int a[2] = { [1] = 1, [0] = 2 }. *)
Theorem C98_crash_refuted : ~ (forall i t lg, wf t = true -> spec_object i t = Some lg -> resolve i t <> Crash).
Proof. intros H. apply (H (Lst [([1], s); ([0], s)]) (Arr 2 tint) _ eq_refl eq_refl). vm_compute. reflexivity. Qed.
Print Assumptions C98_crash_refuted.
(** C98, not so: lists after the last element are accepted. *)
Theorem C98_excess_refuted : ~ (forall i t lg, wf t = true -> resolve i t = Ok lg -> spec_object i t <> None).
Proof. intros H. apply (H (Lst [u (Lst [u s; u s]); u (Lst [u s])]) (Arr 1 tA) _ eq_refl eq_refl). vm_compute. reflexivity. Qed.
Print Assumptions C98_excess_refuted.
