(** What an expression means in C (C11 6.5, 6.3.1.3), independently of the compiler's evaluator. rho gives the variables. None = undefined behaviour or not an integer expression considered here. *)
From Coq Require Import ZArith List Bool.
From Verif.EvalConst Require Import Model.
Open Scope Z_scope.
Definition lo (t : ity) : Z := match t with Bool => 0 | Int true w => - 2 ^ (w - 1) | Int false _ => 0 end.
Definition hi (t : ity) : Z := match t with Bool => 1 | Int true w => 2 ^ (w - 1) - 1 | Int false w => 2 ^ w - 1 end.
Definition fits (t : ity) (z : Z) : Prop := lo t <= z <= hi t.
Definition fitsb (t : ity) (z : Z) : bool := (lo t <=? z) && (z <=? hi t).
(** conversion to t: modulo 2^w; to _Bool: comparison with 0 *)
Definition conv (t : ity) (z : Z) : Z :=
  match t with
  | Bool => if z =? 0 then 0 else 1
  | Int _ w => (z - lo t) mod 2 ^ w + lo t
  end.
(** the result of an arithmetic operation at type t: signed overflow is undefined, unsigned arithmetic is modulo 2^w *)
Definition arith (t : ity) (z : Z) : option Z :=
  match t with
  | Int false _ => Some (conv t z)
  | _ => if fitsb t z then Some z else None
  end.
Definition width (t : ity) : Z := match t with Bool => 1 | Int _ w => w end.
Definition bool_ (b : bool) : option Z := Some (if b then 1 else 0).
Definition cun (t : ity) (o : unop) (x : Z) : option Z :=
  match o with
  | Plus => Some x
  | Minus => arith t (- x)
  | Compl => arith t (- x - 1)
  | Not => bool_ (x =? 0)
  | UOther => None
  end.
Definition cbin (t : ity) (o : binop) (x y : Z) : option Z :=
  match o with
  | Add => arith t (x + y)
  | Sub => arith t (x - y)
  | Mul => arith t (x * y)
  | Div => if y =? 0 then None else arith t (Z.quot x y)
  | Mod => if y =? 0 then None else if fitsb t (Z.quot x y) then Some (Z.rem x y) else None
  | Shl => if (0 <=? y) && (y <? width t) then if (x <? 0) then None else arith t (x * 2 ^ y) else None
  | Shr => if (0 <=? y) && (y <? width t) then Some (x / 2 ^ y) else None
  | Lt => bool_ (x <? y)
  | Gt => bool_ (x >? y)
  | Le => bool_ (x <=? y)
  | Ge => bool_ (x >=? y)
  | Eq => bool_ (x =? y)
  | Ne => bool_ (negb (x =? y))
  | And => Some (Z.land x y)
  | Xor => Some (Z.lxor x y)
  | Or => Some (Z.lor x y)
  | BOther => None
  end.
Fixpoint value (rho : nat -> Z) (e : expr) : option Z :=
  match e with
  | Const _ v => Some v
  | Sizeof v => Some v
  | EnumC _ v => Some v
  | VarE i => Some (rho i)
  | Call => None
  | Logical isAnd a b =>
      match value rho a with
      | None => None
      | Some x =>
          if Bool.eqb (x =? 0) isAnd then bool_ (negb isAnd)
          else match value rho b with None => None | Some y => bool_ (negb (y =? 0)) end
      end
  | Cond a b c => match value rho a with None => None | Some x => if x =? 0 then value rho c else value rho b end
  | Cast t a => match value rho a with None => None | Some x => Some (conv t x) end
  | Un t o a => match value rho a with None => None | Some x => cun t o x end
  | Bin t o a b => match value rho a, value rho b with Some x, Some y => cbin t o x y | _, _ => None end
  end.
(** the integer types of C *)
Definition c_type (t : ity) : Prop := match t with Bool => True | Int _ w => 1 <= w <= 64 end.
Fixpoint c_types (e : expr) : Prop :=
  match e with
  | Const t v => c_type t /\ fits t v
  | EnumC _ v => fits (Int true 64) v
  | Logical _ a b => c_types a /\ c_types b
  | Cond a b c => c_types a /\ c_types b /\ c_types c
  | Cast t a => c_type t /\ c_types a
  | Un t _ a => c_type t /\ c_types a
  | Bin t _ a b => c_type t /\ c_types a /\ c_types b
  | _ => True
  end.
(** nothing of e is lost by calculating with long long: no conversion changes a value, no unsigned operation wraps around, and no value is 2^63 or more. Operands that are not evaluated do not matter. *)
Definition no_wrap_un (t : ity) (o : unop) (x : Z) : Prop := match o with Minus => fits t (- x) | Compl => fits t (- x - 1) | _ => True end.
Definition no_wrap_bin (t : ity) (o : binop) (x y : Z) : Prop :=
  match o with Add => fits t (x + y) | Sub => fits t (x - y) | Mul => fits t (x * y) | Div => fits t (Z.quot x y) | Mod => Z.quot x y < 2 ^ 63 | Shl => fits t (x * 2 ^ y) | _ => True end.
Fixpoint no_wrap (rho : nat -> Z) (e : expr) : Prop :=
  (forall v, value rho e = Some v -> v < 2 ^ 63) /\
  match e with
  | Logical isAnd a b => no_wrap rho a /\ (forall x, value rho a = Some x -> Bool.eqb (x =? 0) isAnd = false -> no_wrap rho b)
  | Cond a b c => no_wrap rho a /\ (forall x, value rho a = Some x -> if x =? 0 then no_wrap rho c else no_wrap rho b)
  | Cast t a => no_wrap rho a /\ (forall x, value rho a = Some x -> fits t x)
  | Un t o a => no_wrap rho a /\ (forall x, value rho a = Some x -> no_wrap_un t o x)
  | Bin t o a b => no_wrap rho a /\ no_wrap rho b /\ (forall x y, value rho a = Some x -> value rho b = Some y -> no_wrap_bin t o x y)
  | _ => True
  end.
(** e contains neither a variable nor a call *)
Fixpoint closed (e : expr) : Prop :=
  match e with
  | Const _ _ | Sizeof _ | EnumC _ _ => True
  | VarE _ | Call => False
  | Logical _ a b => closed a /\ closed b
  | Cond a b c => closed a /\ closed b /\ closed c
  | Cast _ a => closed a
  | Un _ _ a => closed a
  | Bin _ _ a b => closed a /\ closed b
  end.
(** e is made of integer constants, enumerators of known value, casts and the operators listed *)
Fixpoint plain (e : expr) : Prop :=
  match e with
  | Const _ _ => True
  | EnumC k _ => k = true
  | Sizeof _ | VarE _ | Call => False
  | Logical _ a b => plain a /\ plain b
  | Cond a b c => plain a /\ plain b /\ plain c
  | Cast _ a => plain a
  | Un _ o a => plain a /\ o <> UOther
  | Bin _ o a b => plain a /\ plain b /\ o <> BOther
  end.
