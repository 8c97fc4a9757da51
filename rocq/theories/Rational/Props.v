(** C01, C02, C03: rational numbers. *)
From Coq Require Import ZArith QArith Qabs List.
From Verif.Rational Require Import Model Spec Proofs.
Import ListNotations.
Open Scope Z_scope.

(** C01: after any program (sequence of constructors, inputs, operators, powers, from any canonical variables)
    every variable is in canonical form. *)
Theorem C01_canonical_forever : forall p env env',
  Forall canonical env -> run env p = Ok env' -> Forall canonical env'.
Proof. exact run_canonical. Qed.
Print Assumptions C01_canonical_forever.

(** The reduction loop terminates on every input reachable from a program: no run is cut short by the fuel. *)
Theorem C01_reduction_terminates : forall p env, run env p <> NoFuel.
Proof. exact run_nofuel. Qed.
Print Assumptions C01_reduction_terminates.

(** The only aborts are zero denominators. *)
Theorem C01_abort_iff_zero_denominator : forall n d, mk n d = Abort <-> d = 0.
Proof. exact mk_abort. Qed.
Print Assumptions C01_abort_iff_zero_denominator.

Theorem C01_div_abort_iff_zero : forall l r, canonical l -> canonical r -> (rdiv l r = Abort <-> num r = 0).
Proof. exact rdiv_abort. Qed.
Print Assumptions C01_div_abort_iff_zero.

Theorem C01_pow_abort_iff : forall x y, canonical x -> (rpow x y = Abort <-> y < 0 /\ num x = 0).
Proof. exact rpow_abort. Qed.
Print Assumptions C01_pow_abort_iff.

Example C01_example :
  run [] [EMk 6 (-4); EInt 3; EAdd (EVar 0) (EVar 1); EDiv (EVar 2) (EVar 0); EPow (EVar 3) (-3)]
    = Ok [R (-3) 2; R 3 1; R 3 2; R (-1) 1; R (-1) 1].
Proof. reflexivity. Qed.

(** C02: exact arithmetic. *)
Theorem C02_constructor_exact : forall n d r, mk n d = Ok r -> (value r == inject_Z n / inject_Z d)%Q.
Proof. exact value_mk. Qed.
Print Assumptions C02_constructor_exact.

Theorem C02_add_exact : forall l r, canonical l -> canonical r ->
  exists s, radd l r = Ok s /\ (value s == value l + value r)%Q.
Proof. exact radd_total. Qed.
Print Assumptions C02_add_exact.

Theorem C02_sub_exact : forall l r, canonical l -> canonical r ->
  exists s, rsub l r = Ok s /\ (value s == value l - value r)%Q.
Proof. exact rsub_total. Qed.
Print Assumptions C02_sub_exact.

Theorem C02_mul_exact : forall l r, canonical l -> canonical r ->
  exists s, rmul l r = Ok s /\ (value s == value l * value r)%Q.
Proof. exact rmul_total. Qed.
Print Assumptions C02_mul_exact.

Theorem C02_div_exact : forall l r, canonical l -> canonical r -> num r <> 0 ->
  exists s, rdiv l r = Ok s /\ (value s == value l / value r)%Q.
Proof. exact rdiv_total. Qed.
Print Assumptions C02_div_exact.

Theorem C02_neg_exact : forall r, canonical r -> exists s, rneg r = Ok s /\ (value s == - value r)%Q.
Proof. exact rneg_total. Qed.
Print Assumptions C02_neg_exact.

Theorem C02_abs_exact : forall r, canonical r -> exists s, rabs r = Ok s /\ (value s == Qabs (value r))%Q.
Proof. exact rabs_total. Qed.
Print Assumptions C02_abs_exact.

Theorem C02_pos_identity : forall r, canonical r -> rpos r = Ok r.
Proof. exact rpos_id. Qed.
Print Assumptions C02_pos_identity.

Theorem C02_pow_exact : forall x y, canonical x -> 0 <= y \/ num x <> 0 ->
  exists s, rpow x y = Ok s /\ (value s == value x ^ y)%Q.
Proof. exact rpow_total. Qed.
Print Assumptions C02_pow_exact.

Theorem C02_comparisons_exact : forall l r, canonical l -> canonical r ->
  (req l r = true <-> (value l == value r)%Q) /\ (rne l r = true <-> ~ (value l == value r)%Q) /\
  (rlt l r = true <-> (value l < value r)%Q) /\ (rle l r = true <-> (value l <= value r)%Q) /\
  (rgt l r = true <-> (value r < value l)%Q) /\ (rge l r = true <-> (value r <= value l)%Q).
Proof.
  exact (fun l r Hl Hr => conj (req_ok l r Hl Hr) (conj (rne_ok l r Hl Hr) (conj (rlt_ok l r Hl Hr)
    (conj (rle_ok l r Hl Hr) (conj (rgt_ok l r Hl Hr) (rge_ok l r Hl Hr)))))).
Qed.
Print Assumptions C02_comparisons_exact.

(** Equal values have equal representations. *)
Theorem C02_representation_unique : forall l r, canonical l -> canonical r ->
  num l * den r = den l * num r -> l = r.
Proof. exact canonical_unique. Qed.
Print Assumptions C02_representation_unique.

Example C02_example : canonical (R (-3) 2) /\ canonical (R 5 6) /\ num (R 5 6) <> 0.
Proof. repeat split; discriminate. Qed.

(** C03: the setters.  Full statement:
      forall x n, canonical x -> exists r, call_set_num x n = Ok (num x, r) /\ mk n (den x) = Ok r
    (and the same for the denominator).  It is false of the code: the caller's variable never changes. *)
Theorem C03_setter_numerator_refuted :
  exists x n, canonical x /\ ~ exists r, call_set_num x n = Ok (num x, r) /\ mk n (den x) = Ok r.
Proof.
  exists (R 1 2), 3. split; [split; reflexivity|]. intros (r & H1 & H2).
  vm_compute in H1, H2. congruence.
Qed.
Print Assumptions C03_setter_numerator_refuted.

Theorem C03_setter_denominator_refuted :
  exists x d, canonical x /\ d <> 0 /\ ~ exists r, call_set_den x d = Ok (den x, r) /\ mk (num x) d = Ok r.
Proof.
  exists (R 1 2), 3. split; [split; reflexivity|]. split; [discriminate|]. intros (r & H1 & H2).
  vm_compute in H1, H2. congruence.
Qed.
Print Assumptions C03_setter_denominator_refuted.

(** What does hold: the previous part is returned and the callee's copy is right, but the variable is unchanged. *)
Theorem C03_setter_partial : forall x n d prev r, canonical x -> d <> 0 ->
  call_set_num x n = Ok (num x, x) /\ call_set_den x d = Ok (den x, x) /\
  (set_num_body x n = Ok (prev, r) -> mk n (den x) = Ok r) /\
  (set_den_body x d = Ok (prev, r) -> mk (num x) d = Ok r).
Proof.
  exact (fun x n d prev r Hx Hd => conj (set_num_prev x n Hx) (conj (set_den_prev x d Hx Hd)
    (conj (set_num_copy x n prev r Hx) (set_den_copy x d prev r)))).
Qed.
Print Assumptions C03_setter_partial.
