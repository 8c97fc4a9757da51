From Coq Require Import List Bool Arith Lia.
From Verif Require Import GenType.Model GenType.Spec GenType.Proofs.
Import ListNotations.
(** C109: the text printed for a type, read as a declaration, declares the name with that type *)
Theorem C109_c : forall t n, noref t = true -> declares (genType true t n) t (option_map User n).
Proof. intros t n H. apply genType_declares, noref_ok, H. Qed.
Print Assumptions C109_c.
Theorem C109_declares : forall c t n, ok c t = true -> declares (genType c t n) t (option_map User n).
Proof. intros c t n. apply genType_declares. Qed.
Print Assumptions C109_declares.
(** the text has no other reading *)
Theorem C109_unique : forall l t t' n n', declares l t n -> declares l t' n' -> t = t' /\ n = n'.
Proof. exact declares_unique. Qed.
Print Assumptions C109_unique.
(** different types or names have different texts *)
Theorem C109_injective : forall c t t' n n', ok c t = true -> ok c t' = true -> genType c t n = genType c t' n' -> t = t' /\ n = n'.
Proof.
  intros c t t' n n' H H' E. assert (D := genType_declares c t n H). rewrite E in D.
  destruct (declares_unique _ _ _ _ _ D (genType_declares c t' n' H')) as [-> En]. split; [reflexivity|].
  destruct n, n'; cbn in En; congruence.
Qed.
Print Assumptions C109_injective.
(** a reference to an array is printed as an array of references, a reference to a function as a function that returns a reference *)
Theorem C109_ref_refuted : forall q e b n va,
  declares (genType false (Ref q (Array noq false (Expr e) (Base noq b))) (Some n)) (Array noq false (Expr e) (Ref q (Base noq b))) (Some (User n)) /\
  declares (genType false (Ref q (Func [] va (Base noq b))) (Some n)) (Func [] va (Ref q (Base noq b))) (Some (User n)).
Proof.
  intros q e b n va. split; exists 10; intros f Hf; replace f with (10 + (f - 10)) by lia; destruct q as [[] [] [] []]; try destruct va; reflexivity.
Qed.
Print Assumptions C109_ref_refuted.
(** int * const ( * x[4])(char, ...) *)
Definition example : ty := Array noq false (Expr 4) (Pointer noq (Func [Base noq 2] true (Pointer (Q true false false false) (Base noq 1)))).
Example ex_text : genType true example (Some 7) =
  [TBase 1; TStar; TQ Const; TLP; TStar; TName (User 7); TLB; TDim 4; TRB; TRP; TLP; TBase 2; TName (Param 0); TComma; TDots; TRP].
Proof. reflexivity. Qed.
Example ex_read : rd_decl 20 (genType true example (Some 7)) = Some (example, Some (User 7), []).
Proof. vm_compute. reflexivity. Qed.
(** int ( * )[const *] without a name, and a parameter that is a pointer to a function *)
Example ex_abstract : genType false (Func [Pointer noq (Array (Q true false false false) false Vla (Base noq 1)); Pointer noq (Func [] false (Base noq 0))] false (Base noq 3)) None =
  [TBase 3; TLP; TBase 1; TLP; TStar; TRP; TLB; TQ Const; TStar; TRB; TComma; TBase 0; TLP; TStar; TRP; TLP; TBase 0; TRP; TRP].
Proof. reflexivity. Qed.
Example ex_other : rd_decl 20 [TBase 1; TStar; TName (User 7); TLB; TDim 4; TRB] = Some (Array noq false (Expr 4) (Pointer noq (Base noq 1)), Some (User 7), []).
Proof. vm_compute. reflexivity. Qed.
Example ex_twice : rd_decl 20 [TBase 1; TName (User 7); TLP; TBase 1; TName (Param 0); TComma; TBase 2; TName (Param 0); TRP] = None.
Proof. vm_compute. reflexivity. Qed.
