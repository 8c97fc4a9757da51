(** Evaluation of constant expressions in the compiler: src/Common/Eval.cpp:25-210.
    Resolved expressions over integer types. An intrinsic operator carries the type of the chosen overload; its arguments have that type. Not modelled: untyped expressions (an assertion),
    intrinsic calls with other than one or two arguments (an assertion), the null expression, enumerators whose value needs an evaluation of the enumeration's initialisers (EnumC gives the
    result of EnumDecl::valueOf, AST/Decl.cpp:115-170). Ub = the compiler itself executes an operation undefined in C++ (long long overflow, shift distance outside 0..63). *)
From Coq Require Import ZArith List Bool.
Import ListNotations.
Open Scope Z_scope.
(** integer types: signedness and width; _Bool apart *)
Inductive ity := Bool | Int (sg : bool) (w : Z).
Inductive unop := Plus | Minus | Compl | Not | UOther.
Inductive binop := Add | Sub | Mul | Div | Mod | Shl | Shr | Lt | Gt | Le | Ge | Eq | Ne | And | Xor | Or | BOther.
Inductive expr :=
  | Const (t : ity) (v : Z)
  | Sizeof (v : Z)                       (* sizeof, alignof, offsetof; v = what it really is *)
  | EnumC (known : bool) (v : Z)
  | VarE (i : nat)                   (* and any other expression that is not constant *)
  | Call                                 (* function that is not intrinsic *)
  | Logical (isAnd : bool) (a b : expr)
  | Cond (a b c : expr)
  | Cast (t : ity) (a : expr)
  | Un (t : ity) (o : unop) (a : expr)
  | Bin (t : ity) (o : binop) (a b : expr).
(** struct Evaluation, Eval.hpp:25-29 *)
Inductive out := Ub | Done (v : Z) (known gcc : bool).
Definition half : Z := 2 ^ 63.
(** a long long result *)
Definition chk (z : Z) : out := if (- half <=? z) && (z <? half) then Done z true true else Ub.
(** the bits of z as a long long *)
Definition bits (z : Z) : Z := (z + half) mod (2 * half) - half.
Definition b2z (b : bool) : Z := if b then 1 else 0.
Definition nz (z : Z) : bool := negb (z =? 0).
(** 125-138 *)
Definition un (o : unop) (x : Z) : out :=
  match o with
  | Plus => Done x true true
  | Minus => chk (- x)
  | Compl => Done (Z.lnot x) true true
  | Not => Done (b2z (negb (nz x))) true true
  | UOther => Done 0 false false
  end.
(** 153-190; knownValue of the result is 0 unless assigned *)
Definition bin (o : binop) (x y : Z) : out :=
  match o with
  | Add => chk (x + y)
  | Sub => chk (x - y)
  | Mul => chk (x * y)
  | Div => if nz y then chk (Z.quot x y) else Done 0 true true
  | Mod => if nz y then (if (x =? - half) && (y =? -1) then Ub else Done (Z.rem x y) true true) else Done 0 true true
  | Shl => if (0 <=? y) && (y <? 64) then Done (bits (x * 2 ^ y)) true true else Ub
  | Shr => if (0 <=? y) && (y <? 64) then Done (Z.shiftr x y) true true else Ub
  | Lt => Done (b2z (x <? y)) true true
  | Gt => Done (b2z (y <? x)) true true
  | Le => Done (b2z (x <=? y)) true true
  | Ge => Done (b2z (y <=? x)) true true
  | Eq => Done (b2z (x =? y)) true true
  | Ne => Done (b2z (negb (x =? y))) true true
  | And => Done (Z.land x y) true true
  | Xor => Done (Z.lxor x y) true true
  | Or => Done (Z.lor x y) true true
  | BOther => Done 0 false false
  end.
(** eval, 201-210, with the postvisits of EvalNew; result starts as {0, true, true}, 26.
    Each early return leaves the fields as they are at that point: after "not evaluable" hasKnownValue is still true, 57-60, 75-83, 116-119, 140-146. *)
Fixpoint eval (e : expr) : out :=
  match e with
  | Const _ v => Done (bits v) true true                                     (* 35-39, ConstantExpr::intValue *)
  | Sizeof _ => Done 0 false true                                            (* 41-54 *)
  | EnumC k v => Done (if k then bits v else 0) k true                       (* 96-105 *)
  | VarE _ => Done 0 false false                                         (* 97-98 *)
  | Call => Done 0 false false                                               (* 108-112 *)
  | Logical isAnd a b =>                                                     (* 56-73 *)
      match eval a with
      | Ub => Ub
      | Done x kx gx =>
          if negb gx then Done 0 true false
          else match eval b with
               | Ub => Ub
               | Done y ky gy =>
                   if negb gy then Done 0 true false
                   else if negb (kx && ky) then Done 0 false true
                   else Done (b2z (if isAnd then nz x && nz y else nz x || nz y)) true true
               end
      end
  | Cond a b c =>                                                            (* 75-92 *)
      match eval a with
      | Ub => Ub
      | Done x kx gx =>
          if negb gx then Done 0 true false
          else match eval b with
               | Ub => Ub
               | Done y ky gy =>
                   if negb gy then Done 0 true false
                   else match eval c with
                        | Ub => Ub
                        | Done z kz gz =>
                            if negb gz then Done 0 true false
                            else if negb (kx && ky && kz) then Done 0 false true
                            else Done (if nz x then y else z) true true
                        end
               end
      end
  | Cast _ a => eval a                                                       (* 94-98: the type is not looked at *)
  | Un _ o a =>                                                              (* 114-138 *)
      match eval a with
      | Ub => Ub
      | Done x kx gx => if negb gx then Done 0 true false else if negb kx then Done 0 false true else un o x
      end
  | Bin _ o a b =>                                                           (* 139-190 *)
      match eval a with
      | Ub => Ub
      | Done x kx gx =>
          if negb gx then Done 0 true false
          else match eval b with
               | Ub => Ub
               | Done y ky gy =>
                   if negb gy then Done 0 true false
                   else if negb (kx && ky) then Done 0 false true
                   else bin o x y
               end
      end
  end.
(** tryMatchOnStaticValue, ResolvExpr/Unify.cpp:161-172, and exprsPolyCompatibleByStaticValue, GenPoly/GenPoly.cpp:254-264: array dimensions that are the same *)
Definition match_static (e1 e2 : expr) : bool :=
  match eval e1, eval e2 with
  | Done v1 k1 _, Done v2 k2 _ => k1 && k2 && (v1 =? v2)
  | _, _ => false
  end.
