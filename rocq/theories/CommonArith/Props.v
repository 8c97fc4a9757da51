From Coq Require Import List Bool Arith ZArith Lia ZifyBool.
From Verif.BasicTypes Require Model Spec Proofs.
From Verif.Unify Require Import Model.
From Verif.CommonArith Require Import Spec.
Import ListNotations.
Lemma qor_comm a b : qor a b = qor b a.
Proof. unfold qor; rewrite (orb_comm (qc a)), (orb_comm (qv a)), (orb_comm (qm a)), (orb_comm (qa a)); reflexivity. Qed.
Lemma joint_basic d f q1 q2 a b : real d -> is_kind a -> is_kind b -> joint d (S (S (S f))) (Basic q1 a) (Basic q2 b) = Ret [] (Some (Basic (qor q1 q2) (BasicTypes.Model.commonOf a b))).
Proof.
  intros R A B. unfold joint; cbn [inexact exact common setq qof fst snd bind negb qeq noq Bool.eqb andb orb opened depth Nat.eqb qc qv qm qa lookup find].
  destruct (Nat.eqb_spec a b) as [->|N].
  - rewrite ?orb_true_r; cbn [andb]; rewrite ?orb_true_r, BasicTypes.Proofs.common_idem by auto; reflexivity.
  - cbn [negb andb]. rewrite R. unfold qmerge; cbn [fst snd]; rewrite ?orb_true_r; reflexivity.
Qed.
(** Two operands of basic types get the least type both convert to, with the qualifiers of both, in either order. *)
Theorem C90_basic : forall d f q1 q2 a b, real d -> is_kind a -> is_kind b -> exists k,
  joint d (S (S (S f))) (Basic q1 a) (Basic q2 b) = Ret [] (Some (Basic (qor q1 q2) k)) /\ joint d (S (S (S f))) (Basic q2 b) (Basic q1 a) = Ret [] (Some (Basic (qor q1 q2) k)) /\
  BasicTypes.Spec.safe a k /\ BasicTypes.Spec.safe b k /\ forall l, is_kind l -> BasicTypes.Spec.safe a l -> BasicTypes.Spec.safe b l -> BasicTypes.Spec.safe k l.
Proof.
  intros d f q1 q2 a b R A B; exists (BasicTypes.Model.commonOf a b). rewrite !joint_basic by auto. rewrite (qor_comm q2 q1), (BasicTypes.Proofs.common_comm b a) by auto.
  destruct (BasicTypes.Proofs.common_up a b A B). repeat split; auto. intros l L; apply BasicTypes.Proofs.common_least; auto.
Qed.
Print Assumptions C90_basic.
(** Operands of basic types and of the types of the constants 0 and 1 always have a common type, the same in either order, with the qualifiers of both. *)
Theorem C90_operands : forall d f t1 t2, real d -> operand t1 -> operand t2 -> exists t,
  joint d (S (S (S f))) t1 t2 = Ret [] (Some t) /\ joint d (S (S (S f))) t2 t1 = Ret [] (Some t) /\ operand t /\ qof t = qor (qof t1) (qof t2).
Proof.
  intros d f t1 t2 R O1 O2.
  assert (K : forall a b, is_kind a -> is_kind b -> is_kind (BasicTypes.Model.commonOf a b)) by (intros; apply BasicTypes.Proofs.common_kind; auto).
  assert (I : is_kind 6) by (unfold is_kind, BasicTypes.Spec.kind, BasicTypes.Model.kinds; lia).
  destruct O1 as [q1 a A|q1|q1], O2 as [q2 b B|q2|q2].
  1: { destruct (C90_basic d f q1 q2 a b R A B) as (k & E1 & E2 & _). exists (Basic (qor q1 q2) (BasicTypes.Model.commonOf a b)).
       rewrite !joint_basic by auto. rewrite (qor_comm q2 q1), (BasicTypes.Proofs.common_comm b a) by auto. repeat split; auto. constructor; auto. }
  all: unfold joint; cbn [inexact exact common setq qof fst snd bind negb qeq noq Bool.eqb andb orb opened depth Nat.eqb qc qv qm qa lookup find qle implb addq qor].
  all: rewrite ?orb_true_r; cbn [andb]; rewrite ?orb_true_r.
  all: eexists; split; [reflexivity|]; split; [rewrite (qor_comm q2 q1); reflexivity|]; split; [constructor; auto|reflexivity].
Qed.
Print Assumptions C90_operands.
(** A constant 0 or 1 takes the type of the other operand, so the result is not always a type the constant converts to safely: with a char it is char, although 0 counts as an int. *)
Theorem C90_constant_takes : forall d f q q' k, real d -> is_kind k ->
  joint d (S (S (S f))) (Basic q k) (Zero q') = Ret [] (Some (Basic (qor q q') k)) /\ joint d (S (S (S f))) (Basic q k) (One q') = Ret [] (Some (Basic (qor q q') k)).
Proof.
  intros d f q q' k R A; unfold joint; cbn [inexact exact common setq qof fst snd bind negb qeq noq Bool.eqb andb orb opened depth Nat.eqb]. auto.
Qed.
Print Assumptions C90_constant_takes.
Theorem C90_upper_refuted : ~ forall d f t1 t2 q k, real d -> operand t1 -> operand t2 -> joint d (S (S (S f))) t1 t2 = Ret [] (Some (Basic q k)) -> converts t1 k /\ converts t2 k.
Proof.
  intros H. set (d := D (fun x => x) (fun _ => Dtype) (fun _ => true) BasicTypes.Model.commonOf (fun _ _ => false) (fun _ => true) (fun _ => false)).
  assert (A : is_kind 1) by (unfold is_kind, BasicTypes.Spec.kind, BasicTypes.Model.kinds; lia).
  destruct (H d 0 (Basic noq 1) (Zero noq) (qor noq noq) 1 (fun _ _ => eq_refl) (op_basic _ _ A) (op_zero _)) as [_ C]; [reflexivity|].
  unfold converts, BasicTypes.Spec.safe in C. vm_compute in C. congruence.
Qed.
Print Assumptions C90_upper_refuted.
(** For a basic type and an enumeration of C the order matters: the enumeration counts as int when it comes second, as unsigned int when it comes first. The two agree exactly for unsigned int and the types it converts to. *)
Theorem C90_enum : forall d f q q' k n, real d -> is_kind k -> cenum d n = true ->
  joint d (S (S (S (S f)))) (Basic q k) (Enm q' n) = Ret [] (Some (Basic (qor q q') (BasicTypes.Model.commonOf k 6))) /\
  joint d (S (S (S (S f)))) (Enm q' n) (Basic q k) = Ret [] (Some (Basic (qor q q') (BasicTypes.Model.commonOf 7 k))) /\
  (BasicTypes.Model.commonOf k 6 = BasicTypes.Model.commonOf 7 k <-> BasicTypes.Spec.safe 7 k).
Proof.
  intros d f q q' k n R A C. split; [|split].
  - unfold joint; cbn [inexact exact common setq qof fst snd bind negb qeq noq Bool.eqb andb orb opened depth Nat.eqb]. rewrite C, R. rewrite !orb_true_r. reflexivity.
  - unfold joint; cbn [inexact exact common setq qof fst snd bind negb qeq noq Bool.eqb andb orb opened depth Nat.eqb]. rewrite C. cbn [common depth Nat.eqb negb fst snd]. rewrite R.
    destruct k as [|[|[|[|[|[|[|[|k]]]]]]]]; cbn [andb negb qmerge fst snd]; unfold qmerge; cbn [fst snd]; rewrite ?orb_true_r; cbn [andb bind setq]; rewrite ?(qor_comm q' q); reflexivity.
  - assert (E : Bool.eqb (BasicTypes.Model.commonOf k 6 =? BasicTypes.Model.commonOf 7 k) (0 <=? BasicTypes.Model.costOf 7 k)%Z = true) by (revert k A; apply BasicTypes.Proofs.all1_ok; vm_compute; reflexivity).
    unfold BasicTypes.Spec.safe. apply eqb_prop in E. destruct (Nat.eqb_spec (BasicTypes.Model.commonOf k 6) (BasicTypes.Model.commonOf 7 k)); split; intros; try lia; auto.
Qed.
Print Assumptions C90_enum.
Theorem C90_enum_order_refuted : ~ forall d f t1 t2 r r', real d -> joint d (S (S (S (S f)))) t1 t2 = Ret [] (Some r) -> joint d (S (S (S (S f)))) t2 t1 = Ret [] (Some r') -> r = r'.
Proof.
  intros H. set (d := D (fun x => x) (fun _ => Dtype) (fun _ => true) BasicTypes.Model.commonOf (fun _ _ => false) (fun _ => true) (fun _ => false)).
  assert (E := H d 0 (Basic noq 6) (Enm noq 0) (Basic noq 6) (Basic noq 7) (fun _ _ => eq_refl) eq_refl eq_refl). discriminate.
Qed.
Print Assumptions C90_enum_order_refuted.
(** 0 and an enumeration of C: in one order the enumeration, in the other unsigned int. *)
Theorem C90_zero_enum_refuted : forall d f n, cenum d n = true -> typed d n = false ->
  joint d (S (S (S (S f)))) (Zero noq) (Enm noq n) = Ret [] (Some (Enm noq n)) /\ joint d (S (S (S (S f)))) (Enm noq n) (Zero noq) = Ret [] (Some (Basic noq 7)).
Proof.
  intros d f n C Y; unfold joint; cbn [inexact exact common setq qof fst snd bind negb qeq noq Bool.eqb andb orb opened depth Nat.eqb]. rewrite C, Y. split; reflexivity.
Qed.
Print Assumptions C90_zero_enum_refuted.
(** Values of two enumerations, neither of which is in the other, have no common type, although both convert to int. *)
Theorem C90_two_enums_refuted : forall d f n m, n <> m -> child d n m = false -> joint d (S (S (S (S f)))) (Enm noq n) (Enm noq m) = Ret [] None.
Proof.
  intros d f n m N C; unfold joint; cbn [inexact exact common setq qof fst snd bind negb qeq noq Bool.eqb andb orb opened depth Nat.eqb qc qv qm qa].
  destruct (Nat.eqb_spec n m); [congruence|]. rewrite C. reflexivity.
Qed.
Print Assumptions C90_two_enums_refuted.
(** When only one operand may be widened it is taken to the type of the other one, even where that is no safe conversion: a double to int. *)
Theorem C90_one_sided : forall d f q a b, is_kind a -> is_kind b -> a <> b ->
  inexact d (S (S (S f))) (true, false) (Basic q a) (Basic q b) [] = Ret [] (Some (Basic (qor q q) b)) /\ inexact d (S (S (S f))) (false, true) (Basic q a) (Basic q b) [] = Ret [] (Some (Basic (qor q q) a)).
Proof.
  intros d f q a b A B N; cbn [inexact exact common setq qof fst snd bind negb qeq noq Bool.eqb andb orb opened depth Nat.eqb qc qv qm qa].
  destruct (Nat.eqb_spec a b); [congruence|]. split; reflexivity.
Qed.
Print Assumptions C90_one_sided.
Theorem C90_one_sided_refuted : ~ forall d f a b q k, real d -> is_kind a -> is_kind b ->
  inexact d (S (S (S f))) (true, false) (Basic noq a) (Basic noq b) [] = Ret [] (Some (Basic q k)) -> BasicTypes.Spec.safe a k.
Proof.
  intros H. set (d := D (fun x => x) (fun _ => Dtype) (fun _ => true) BasicTypes.Model.commonOf (fun _ _ => false) (fun _ => true) (fun _ => false)).
  assert (A : is_kind 24) by (unfold is_kind, BasicTypes.Spec.kind, BasicTypes.Model.kinds; lia). assert (B : is_kind 6) by (unfold is_kind, BasicTypes.Spec.kind, BasicTypes.Model.kinds; lia).
  assert (C := H d 0 24 6 noq 6 (fun _ _ => eq_refl) A B eq_refl). unfold BasicTypes.Spec.safe in C. vm_compute in C. congruence.
Qed.
Print Assumptions C90_one_sided_refuted.
(** The qualifiers of the result are ones both operands convert to freely, if neither is mutex or atomic; *)
Theorem C90_qualifiers : forall a b, qm a = false -> qm b = false -> qa a = false -> qa b = false ->
  qle a (qor a b) = true /\ qle b (qor a b) = true /\ forall c, qle a c = true -> qle b c = true -> qle (qor a b) c = true.
Proof.
  intros [[] [] m1 a1] [[] [] m2 a2]; cbn [qm qa]; intros -> -> -> ->; (split; [reflexivity|split; [reflexivity|]]); intros [[] [] [] []]; vm_compute; congruence.
Qed.
Print Assumptions C90_qualifiers.
(** a mutex type and another one get mutex, which only the first one converts to: mutex may be dropped, not added. *)
Theorem C90_mutex_refuted : ~ forall a b, qle b (qor a b) = true.
Proof. intros H. specialize (H (Q false false true false) noq). discriminate. Qed.
Print Assumptions C90_mutex_refuted.
(** const double and float _Complex: const double _Complex; char and 0: char; int and an enumeration: int or unsigned int *)
Example C90_demo : let d := D (fun x => x) (fun _ => Dtype) (fun _ => true) BasicTypes.Model.commonOf (fun _ _ => false) (fun _ => true) (fun _ => false) in
  let c := Q true false false false in
  joint d 3 (Basic c 24) (Basic noq 19) = Ret [] (Some (Basic c 25)) /\ joint d 3 (Zero c) (Basic noq 1) = Ret [] (Some (Basic c 1)) /\
  joint d 3 (Zero noq) (One noq) = Ret [] (Some (Basic noq 6)) /\ joint d 4 (Basic noq 6) (Enm noq 3) = Ret [] (Some (Basic noq 6)) /\ joint d 4 (Enm noq 3) (Basic noq 6) = Ret [] (Some (Basic noq 7)).
Proof. vm_compute; repeat split. Qed.
