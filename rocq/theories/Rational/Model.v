(** Model of libcfa/src/rational.cfa, instantiated at T = unbounded integers.
    Simplification (whole file): T is Z, so overflow of a machine integer T is not modelled
    (the code is polymorphic in T).  C's truncating [/] and [%] are [Z.quot] and [Z.rem].
    [abort] is the distinct outcome [Abort]; an exhausted loop is [NoFuel]. *)
From Coq Require Import ZArith List.
Import ListNotations.
Open Scope Z_scope.

Inductive res (A : Type) : Type := Ok (a : A) | Abort | NoFuel.
Arguments Ok {A} a. Arguments Abort {A}. Arguments NoFuel {A}.

Definition bind {A B} (x : res A) (f : A -> res B) : res B :=
  match x with Ok a => f a | Abort => Abort | NoFuel => NoFuel end.

(** rational.hfa:26-28, struct rational *)
Record rational := R { num : Z; den : Z }.

(** rational.cfa:27-35, gcd: [for () { r = a % b; if ( r == 0 ) break; a = b; b = r; } return b;].
    The unbounded loop carries fuel. *)
Fixpoint gcd_loop (fuel : nat) (a b : Z) : res Z :=
  match fuel with
  | O => NoFuel
  | S f => let r := Z.rem a b in
           if r =? 0 then Ok b else gcd_loop f b r
  end.
Definition gcd_fuel (b : Z) : nat := (2 * (Z.to_nat (Z.log2 (Z.abs b)) + 1) + 1)%nat.
Definition gcd (a b : Z) : res Z := gcd_loop (gcd_fuel b) a b.

(** rational.cfa:37-43, simplify: updates n and d by reference and returns the divisor. *)
Definition simplify (n d : Z) : res (Z * Z * Z) :=
  if d =? 0 then Abort
  else let '(n, d) := if d <? 0 then (- n, - d) else (n, d) in
       bind (gcd (Z.abs n) d) (fun t => Ok (n, d, t)).

(** rational.cfa:65-68, two-argument constructor *)
Definition mk (n d : Z) : res rational :=
  bind (simplify n d) (fun '(n, d, t) => Ok (R (Z.quot n t) (Z.quot d t))).

(** rational.cfa:49-63, zero_t / one_t / default / one-argument constructors *)
Definition mk_zero : res rational := mk 0 1.
Definition mk_one : res rational := mk 1 1.
Definition mk_int (n : Z) : res rational := mk n 1.

(** rational.cfa:72-78, getters *)
Definition numerator (r : rational) : Z := num r.
Definition denominator (r : rational) : Z := den r.

(** rational.cfa:86-91, setter.  The parameter [rational(T) r] is passed by value: the assignment
    at line 89 changes the callee's copy.  The result is (returned value, callee's copy); the caller's
    variable is not part of what the function can change - see [call_set_num]. *)
Definition set_num_body (r : rational) (n : Z) : res (Z * rational) :=
  let prev := num r in
  bind (gcd (Z.abs n) (den r)) (fun t =>
  Ok (prev, R (Z.quot n t) (Z.quot (den r) t))).
(** rational.cfa:93-98, setter, by value as well *)
Definition set_den_body (r : rational) (d : Z) : res (Z * rational) :=
  let prev := den r in
  bind (simplify (num r) d) (fun '(n, d, t) =>
  Ok (prev, R (Z.quot n t) (Z.quot d t))).
(** A call [numerator( x, n )] with [x] a caller's variable: returns (value, caller's variable after).
    By-value parameter (rational.hfa:50-51, rational.cfa:86,93): the caller's variable keeps its value. *)
Definition call_set_num (x : rational) (n : Z) : res (Z * rational) :=
  bind (set_num_body x n) (fun '(prev, _) => Ok (prev, x)).
Definition call_set_den (x : rational) (d : Z) : res (Z * rational) :=
  bind (set_den_body x d) (fun '(prev, _) => Ok (prev, x)).

(** rational.cfa:102-128, comparison *)
Definition req (l r : rational) : bool := num l * den r =? den l * num r.
Definition rne (l r : rational) : bool := negb (req l r).
Definition rne0 (l : rational) : res bool := bind mk_zero (fun z => Ok (negb (req l z))).
Definition rlt (l r : rational) : bool := num l * den r <? den l * num r.
Definition rle (l r : rational) : bool := num l * den r <=? den l * num r.
Definition rgt (l r : rational) : bool := negb (rle l r).
Definition rge (l r : rational) : bool := negb (rlt l r).

(** rational.cfa:132-138, unary + and - *)
Definition rpos (r : rational) : res rational := mk (num r) (den r).
Definition rneg (r : rational) : res rational := mk (- num r) (den r).
(** rational.cfa:140-146 (and :148-156 [+=], which assign the same result) *)
Definition radd (l r : rational) : res rational :=
  if den l =? den r then mk (num l + num r) (den l)
  else mk (num l * den r + den l * num r) (den l * den r).
(** rational.cfa:158-164 (and :166-174 [-=]) *)
Definition rsub (l r : rational) : res rational :=
  if den l =? den r then mk (num l - num r) (den l)
  else mk (num l * den r - den l * num r) (den l * den r).
(** rational.cfa:176-178 (and :180-182 [*=]) *)
Definition rmul (l r : rational) : res rational := mk (num l * num r) (den l * den r).
(** rational.cfa:184-189 (and :191-193 [/=]) *)
Definition rdiv (l r : rational) : res rational :=
  let r := if num r <? 0 then R (- num r) (- den r) else r in
  mk (num l * den r) (den l * num r).

(** libcfa/src/common.hfa:64-65, polymorphic abs at T = rational: [v < (T){0} ? -v : v] *)
Definition rabs (v : rational) : res rational :=
  bind mk_zero (fun z => if rlt v z then rneg v else Ok v).

(** rational.cfa:200-206, stream input: reads the two fields then simplifies them in place *)
Definition rinput (n d : Z) : res rational :=
  bind (simplify n d) (fun '(n, d, t) => Ok (R (Z.quot n t) (Z.quot d t))).

(** libcfa/src/math.cfa:114-127 with the empty __CFA_EXP_INT__ of :138 (polymorphic ?\?):
    [for ( ; y > 1; y >>= 1 ) { if ( (y & 1) == 1 ) op = op * w; w = w * w; } return w * op;]
    The loop over the bits of y > 0 is structural recursion on its binary representation. *)
Fixpoint exp_loop (y : positive) (op w : Z) : Z :=
  match y with
  | xH => w * op
  | xO y' => exp_loop y' op (w * w)
  | xI y' => exp_loop y' (op * w) (w * w)
  end.
Definition exp_poly (x : Z) (y : Z) : Z :=
  match y with
  | Zpos p => exp_loop p 1 x
  | _ => 1                                  (* y == 0: convention; y is unsigned *)
  end.

(** rational.cfa:219-225 (and :227-229 [\=]); the T exponentiation is the polymorphic one above. *)
Definition rpow (x : rational) (y : Z) : res rational :=
  if y <? 0 then mk (exp_poly (den x) (- y)) (exp_poly (num x) (- y))
  else mk (exp_poly (num x) y) (exp_poly (den x) y).

(** Programs: every value a client can build.  [EVar] reads a variable of an environment; assignment of
    results to variables is environment extension, so expressions over environments cover every sequence
    of constructors, operators and op-assignments. [ENarrow m00 m10] is narrow (rational.cfa:240-266), whose
    result is always the constructor applied to the two convergent terms; the floating-point computation of
    the terms is not modelled, they are arbitrary. *)
Inductive expr :=
| EVar (i : nat)
| EMk (n d : Z) | EInt (n : Z) | EZero | EOne | EInput (n d : Z) | ENarrow (m00 m10 : Z)
| EPos (e : expr) | ENeg (e : expr) | EAbs (e : expr)
| EAdd (a b : expr) | ESub (a b : expr) | EMul (a b : expr) | EDiv (a b : expr)
| EPow (e : expr) (y : Z).

Fixpoint eval (env : list rational) (e : expr) : res rational :=
  match e with
  | EVar i => match nth_error env i with Some r => Ok r | None => Abort end
  | EMk n d => mk n d
  | EInt n => mk_int n
  | EZero => mk_zero
  | EOne => mk_one
  | EInput n d => rinput n d
  | ENarrow a b => mk a b
  | EPos a => bind (eval env a) rpos
  | ENeg a => bind (eval env a) rneg
  | EAbs a => bind (eval env a) rabs
  | EAdd a b => bind (eval env a) (fun x => bind (eval env b) (radd x))
  | ESub a b => bind (eval env a) (fun x => bind (eval env b) (rsub x))
  | EMul a b => bind (eval env a) (fun x => bind (eval env b) (rmul x))
  | EDiv a b => bind (eval env a) (fun x => bind (eval env b) (rdiv x))
  | EPow a y => bind (eval env a) (fun x => rpow x y)
  end.

(** A program: a sequence of assignments, each pushing a new variable, stopped by the first abort. *)
Fixpoint run (env : list rational) (p : list expr) : res (list rational) :=
  match p with
  | [] => Ok env
  | e :: p' => bind (eval env e) (fun r => run (env ++ [r]) p')
  end.
