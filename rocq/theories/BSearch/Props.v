(** C08: binary searches. *)
From Coq Require Import List ZArith Lia.
From Verif.BSearch Require Import Model Spec Proofs.
Import ListNotations.

Theorem C08_lower_bound : forall (K E : Type) (lt : K -> K -> bool) (getKey : E -> K),
  strict_weak lt -> forall key vals, ascending lt getKey vals ->
  exists p, bsearchl lt getKey key vals (length vals) = Ok p /\ p <= length vals /\
    (forall i v, i < p -> nth_error vals i = Some v -> lt (getKey v) key = true) /\
    (forall i v, p <= i -> nth_error vals i = Some v -> lt (getKey v) key = false).
Proof. exact @bsearchl_ok. Qed.
Print Assumptions C08_lower_bound.

Theorem C08_upper_bound : forall (K E : Type) (lt : K -> K -> bool) (getKey : E -> K),
  strict_weak lt -> forall key vals, ascending lt getKey vals ->
  exists p, bsearchu lt getKey key vals (length vals) = Ok p /\ p <= length vals /\
    (forall i v, i < p -> nth_error vals i = Some v -> lt key (getKey v) = false) /\
    (forall i v, p <= i -> nth_error vals i = Some v -> lt key (getKey v) = true).
Proof. exact @bsearchu_ok. Qed.
Print Assumptions C08_upper_bound.

(** Exact search, for any C library bsearch meeting its standard contract: returns a matching position, or the
    array size when no element matches. *)
Theorem C08_exact : forall (K E : Type) (lt : K -> K -> bool) (getKey : E -> K),
  strict_weak lt -> forall cb key vals, c_bsearch_contract cb -> ascending lt getKey vals ->
  let r := bsearch lt getKey cb key vals (length vals) in
  (r < length vals /\ exists v, nth_error vals r = Some v /\ lt key (getKey v) = false /\ lt (getKey v) key = false)
  \/ (r = length vals /\ forall v, In v vals -> lt key (getKey v) = true \/ lt (getKey v) key = true).
Proof. exact @bsearch_ok. Qed.
Print Assumptions C08_exact.

(** The hypotheses are met: the usual order on Z, keys of pairs, duplicates. *)
Example C08_example_order : strict_weak Z.ltb.
Proof.
  split; [apply Z.ltb_irrefl|]. split; intros x y z; rewrite !Z.ltb_lt; [apply Z.lt_trans|].
  intros H. destruct (Z.lt_ge_cases x y); [left|right]; auto. eapply Z.le_lt_trans; eauto.
Qed.
Example C08_example :
  let vals := [(1, true); (3, false); (3, true); (7, false)]%Z in
  bsearchl Z.ltb fst 3%Z vals 4 = Ok 1 /\ bsearchu Z.ltb fst 3%Z vals 4 = Ok 3 /\
  bsearchl Z.ltb fst 9%Z vals 4 = Ok 4 /\ bsearchl Z.ltb fst 3%Z (@nil (Z * bool)) 0 = Ok 0 /\
  ascending Z.ltb fst vals.
Proof.
  repeat split. intros i j a b Hij Hi Hj.
  destruct j as [|[|[|[|j]]]]; [lia| | | |destruct j; discriminate];
    destruct i as [|[|[|[|i]]]]; try lia; cbn in Hi, Hj; injection Hi as <-; injection Hj as <-; reflexivity.
Qed.
(** A function meeting the C contract exists: scanning for the first zero. *)
Fixpoint scan {E} (c : E -> Z) (l : list E) : option nat :=
  match l with
  | [] => None
  | v :: r => if Z.eqb (c v) 0 then Some 0 else option_map S (scan c r)
  end.
Example C08_example_contract : forall E, c_bsearch_contract (@scan E).
Proof.
  intros E c vals _. induction vals as [|v r IH]; cbn [scan]; [intros ? []|].
  destruct (Z.eqb_spec (c v) 0) as [Hz|Hz]; [exists v; auto|].
  destruct (scan c r) as [i|]; cbn; [exact IH|]. intros w [<-|Hw]; auto.
Qed.
