(** C47, C48: conversion costs. *)
From Coq Require Import ZArith List.
From Verif.Cost Require Import Model Spec Proofs.
Import ListNotations.
Open Scope Z_scope.

(** C47: order *)
Theorem C47_order_is_lexicographic : forall l r, finite l -> finite r -> ltb l r = true <-> lex (vec l) (vec r).
Proof. exact ltb_finite. Qed.
Print Assumptions C47_order_is_lexicographic.
Theorem C47_infinity_greatest : forall l, ltb infinity l = false /\ (l <> infinity -> ltb l infinity = true).
Proof. exact ltb_infinity. Qed.
Print Assumptions C47_infinity_greatest.
Theorem C47_strict_total_order :
  (forall a, ltb a a = false) /\ (forall a b c, ltb a b = true -> ltb b c = true -> ltb a c = true) /\
  (forall a b, ltb a b = true \/ a = b \/ ltb b a = true) /\
  (forall a b, leb a b = true <-> ltb a b = true \/ eqb a b = true).
Proof. exact (conj ltb_irrefl (conj ltb_trans (conj ltb_total leb_total))). Qed.
Print Assumptions C47_strict_total_order.
Theorem C47_components_determine : forall l r, cost l -> cost r -> vec l = vec r -> l = r.
Proof. exact vec_inj. Qed.
Print Assumptions C47_components_determine.
Theorem C47_construct : forall a b c d e f g h, in_range [a; e; b; c; d; f; g; h] ->
  vec (mk a b c d e f g h) = [a; e; b; c; d; f; g; h] /\ cost (mk a b c d e f g h).
Proof. exact mk_vec. Qed.
Print Assumptions C47_construct.

(** addition: componentwise as long as no component leaves its range *)
Theorem C47_add_componentwise : forall l r, finite l -> finite r -> in_range (vadd (vec l) (vec r)) ->
  vec (add l r) = vadd (vec l) (vec r) /\ cost (add l r).
Proof. exact add_vec. Qed.
Print Assumptions C47_add_componentwise.
Theorem C47_add_monoid :
  (forall l r, add l r = add r l) /\ (forall c, cost c -> add c zero = c /\ add zero c = c) /\
  (forall c, add c infinity = infinity /\ add infinity c = infinity) /\ (forall l r, add_assign l r = add l r).
Proof. exact (conj add_comm (conj add_zero (conj add_infinity add_assign_ok))). Qed.
Print Assumptions C47_add_monoid.
Theorem C47_add_assoc : forall a b c, finite a -> finite b -> finite c ->
  in_range (vadd (vadd (vec a) (vec b)) (vec c)) -> add a b <> infinity -> add b c <> infinity ->
  add a (add b c) = add (add a b) c.
Proof. exact add_assoc. Qed.
Print Assumptions C47_add_assoc.
Theorem C47_add_monotone : forall a b c, finite a -> finite b -> finite c ->
  in_range (vadd (vec a) (vec c)) -> in_range (vadd (vec b) (vec c)) ->
  add a c <> infinity -> ltb a b = true -> ltb (add a c) (add b c) = true.
Proof. exact add_mono. Qed.
Print Assumptions C47_add_monotone.
(** Nothing in operator+ checks the ranges: 200 variables twice carry into the sign component. *)
Theorem C47_add_unchecked_refuted : exists l r, finite l /\ finite r /\ vec (add l r) <> vadd (vec l) (vec r).
Proof.
  exists 0x0000000000c8ff00, 0x0000000000c8ff00. split; [|split].
  - split; [split; vm_compute; congruence|discriminate].
  - split; [split; vm_compute; congruence|discriminate].
  - vm_compute. discriminate.
Qed.
Print Assumptions C47_add_unchecked_refuted.
(** mutators change exactly their component *)
Theorem C47_increment : forall f k, In (f, k) [(incUnsafe, 0%nat); (incImplicit, 1%nat); (incPoly, 2%nat); (incSafe, 3%nat);
    (incSign, 4%nat); (incVar, 5%nat); (incReference, 7%nat)] ->
  forall c n c', finite c -> 0 <= n -> f c n = Some c' -> vec c' = vadd (vec c) (unit_vec k n) /\ cost c'.
Proof. exact inc_vec. Qed.
Print Assumptions C47_increment.
Theorem C47_decrement_spec : forall c n c', finite c -> 0 <= n -> decSpec c n = Some c' ->
  vec c' = vadd (vec c) (unit_vec 6 (- n)) /\ cost c'.
Proof. exact decSpec_vec. Qed.
Print Assumptions C47_decrement_spec.
Example C47_example : finite (mk 0 2 1 0 0 3 (-2) 1) /\ vec (mk 0 2 1 0 0 3 (-2) 1) = [0; 0; 2; 1; 0; 3; -2; 1] /\
  vec (add (mk 0 2 1 0 0 3 (-2) 1) (mk 1 0 0 0 0 1 (-1) 0)) = [1; 0; 2; 1; 0; 4; -3; 1] /\
  ltb (mk 0 2 1 0 0 3 (-2) 1) (mk 0 2 1 0 0 3 (-1) 0) = true.
Proof. vm_compute. repeat split; congruence. Qed.

(** C48: three-way comparison *)
Theorem C48_compare_partial : forall l r, ~ (l = infinity /\ r = infinity) ->
  (compare l r < 0 <-> ltb l r = true) /\ (compare l r = 0 <-> eqb l r = true) /\ (compare l r > 0 <-> ltb r l = true).
Proof. exact compare_ok. Qed.
Print Assumptions C48_compare_partial.
Theorem C48_compare_infinity_refuted : eqb infinity infinity = true /\ compare infinity infinity <> 0.
Proof. split; [reflexivity|discriminate]. Qed.
Print Assumptions C48_compare_infinity_refuted.
(** Named unit costs: each is one unit of its component ... *)
Theorem C48_units_partial : map vec [unsafe; poly; safe; sign; var; spec; reference] =
  [unit_vec 0 1; unit_vec 2 1; unit_vec 3 1; unit_vec 4 1; unit_vec 5 1; unit_vec 6 (-1); unit_vec 7 1] /\
  vec zero = [0; 0; 0; 0; 0; 0; 0; 0].
Proof. vm_compute. split; reflexivity. Qed.
Print Assumptions C48_units_partial.
(** ... except the implicit one, which also counts a sign conversion. *)
Theorem C48_implicit_unit_refuted : vec implicit <> unit_vec 1 1 /\ vec implicit = vadd (unit_vec 1 1) (unit_vec 4 1).
Proof. vm_compute. split; [discriminate|reflexivity]. Qed.
Print Assumptions C48_implicit_unit_refuted.
Example C48_example : compare poly safe = 1 /\ compare safe infinity = -1 /\ compare infinity zero = 1.
Proof. repeat split. Qed.
