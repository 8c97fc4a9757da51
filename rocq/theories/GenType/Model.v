(** Printing of types as C declarations: src/CodeGen/GenType.cpp.
    The text is a list of tokens. Not modelled: attributes, forall clauses, generic parameters, tuple, typeof, vtable and qualified types;
    names that start with an operator character (the space after the star at line 138). Void, basic, struct, union, enum and other named types are Base. *)
From Coq Require Import List Bool Arith.
Import ListNotations.
Record quals := Q { qc : bool; qv : bool; qr : bool; qa : bool }.
Inductive qual := Const | Volatile | Restrict | Atomic.
(** a dimension: none, the star of a variable-length array, an expression *)
Inductive dim := NoDim | Vla | Expr (e : nat).
(** Base 0 is void; a pointer with a dimension, static or variable length is printed as an array (134-135) and given as one; no return type is void (190-191) *)
Inductive ty :=
| Base (q : quals) (b : nat)
| Pointer (q : quals) (t : ty)
| Array (q : quals) (st : bool) (d : dim) (t : ty)
| Func (ps : list ty) (va : bool) (ret : ty)
| Ref (q : quals) (t : ty).
Inductive name := User (n : nat) | Param (i : nat).
Inductive tok := TStar | TAmp | TLP | TRP | TLB | TRB | TComma | TDots | TStatic | TQ (q : qual) | TName (n : name) | TBase (b : nat) | TDim (e : nat).
(** handleQualifiers, 316-329: each qualifier is put in front *)
Definition handleQ (q : quals) (r : list tok) : list tok :=
  let r := if qc q then TQ Const :: r else r in
  let r := if qv q then TQ Volatile :: r else r in
  let r := if qr q then TQ Restrict :: r else r in
  if qa q then TQ Atomic :: r else r.
(** genArray, 95-131, and the start of a function type, 161-167 *)
Definition enclose (r : list tok) : list tok := match r with TStar :: _ => TLP :: r ++ [TRP] | _ => r end.
Definition brackets (q : quals) (st : bool) (d : dim) : list tok :=
  TLB :: (if st then [TStatic] else []) ++ (if qc q then [TQ Const] else []) ++ (if qv q then [TQ Volatile] else []) ++
  (if qr q then [TQ Restrict] else []) ++ (if qa q then [TQ Atomic] else []) ++
  match d with NoDim => [] | Vla => [TStar] | Expr e => [TDim e] end ++ [TRB].
(** the parameters of a function, 169-186 and genParamList, 331-343; c: options.genC *)
Fixpoint commas (l : list (list tok)) : list tok := match l with [] => [] | [x] => x | x :: r => x ++ TComma :: commas r end.
Definition parens (c va : bool) (ps : list (list tok)) : list tok :=
  match ps with
  | [] => if negb va then [TLP; TBase 0; TRP] else if c then [TLP; TRP] else [TLP; TDots; TRP]
  | _ => TLP :: commas ps ++ (if va then [TComma; TDots] else []) ++ [TRP]
  end.
(** the visitor, 83-193, 220-248; r: result *)
Fixpoint gen (c : bool) (t : ty) (r : list tok) {struct t} : list tok :=
  match t with
  | Base q b => handleQ q (TBase b :: r)
  | Pointer q t => gen c t (TStar :: handleQ q r)
  | Array q st d t => gen c t (enclose r ++ brackets q st d)
  | Func ps va ret =>
      let params := (fix go (i : nat) (l : list ty) : list (list tok) :=
                       match l with [] => [] | p :: l => gen c p (if c then [TName (Param i)] else []) :: go (S i) l end) 0 ps in
      gen c ret (enclose r ++ parens c va params)
  | Ref q t => gen c t (TAmp :: handleQ q r)
  end.
(** genType, 347-355: base is the name declared, or empty *)
Definition genType (c : bool) (t : ty) (n : option nat) : list tok := gen c t (match n with Some n => [TName (User n)] | None => [] end).
