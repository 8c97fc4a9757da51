(** The common type of two arithmetic operands, such as the branches of a conditional expression: the model of unification (Unify/Model.v) with the table of common types of the compiler (BasicTypes/Model.v). *)
From Coq Require Import List Bool Arith ZArith.
From Verif.BasicTypes Require Model Spec.
From Verif.Unify Require Import Model.
Import ListNotations.
(** the table is the one of CommonType.cpp:43-339; names, variables and enumerations are any *)
Definition real (d : decls) : Prop := forall a b, ct d a b = BasicTypes.Model.commonOf a b.
(** what type both operands are given, Unify.cpp:671-705, when both may be widened, as for the branches of a conditional expression: unify, Unify.cpp:631-642, called at CandidateFinder.cpp:1621 *)
Definition joint (d : decls) (f : nat) (t1 t2 : ty) : res (option ty) := inexact d f (true, true) t1 t2 [].
Definition is_kind (k : nat) : Prop := BasicTypes.Spec.kind k.
(** an operand of type zero_t or one_t, or of a basic type *)
Inductive operand : ty -> Prop :=
  | op_basic q k : is_kind k -> operand (Basic q k)
  | op_zero q : operand (Zero q)
  | op_one q : operand (One q).
(** conversion of an operand to a basic type is safe, ConversionCost.cpp:311-320,466-475,496-505 *)
Definition converts (t : ty) (k : nat) : Prop :=
  match t with
  | Basic _ a => BasicTypes.Spec.safe a k
  | Zero _ | One _ => BasicTypes.Spec.safe BasicTypes.Model.SignedInt k
  | _ => False
  end.
