(** Reading of C declarations (C11 6.7.6, 6.7.7), with the references of Cforall: pointers bind weaker than the brackets and parentheses behind a name. *)
From Coq Require Import List Bool Arith.
From Verif Require Import GenType.Model.
Import ListNotations.
Definition noq : quals := Q false false false false.
Definition addq (x : qual) (q : quals) : quals :=
  match x with Const => Q true (qv q) (qr q) (qa q) | Volatile => Q (qc q) true (qr q) (qa q) | Restrict => Q (qc q) (qv q) true (qa q) | Atomic => Q (qc q) (qv q) (qr q) true end.
Fixpoint rd_quals (l : list tok) : quals * list tok :=
  match l with TQ x :: r => let (q, r') := rd_quals r in (addq x q, r') | _ => (noq, l) end.
(** what a declarator says of its name: "array of", "pointer to", ... *)
Inductive step := SPtr (q : quals) | SRef (q : quals) | SArr (q : quals) (st : bool) (d : dim) | SFun (ps : list ty) (va : bool).
Definition app1 (s : step) (t : ty) : ty := match s with SPtr q => Pointer q t | SRef q => Ref q t | SArr q st d => Array q st d t | SFun ps va => Func ps va t end.
Definition apps (l : list step) (t : ty) : ty := fold_right app1 t l.
Definition rd_brackets (l : list tok) : option (step * list tok) :=
  let (st, l) := match l with TStatic :: r => (true, r) | _ => (false, l) end in
  let (q, l) := rd_quals l in
  match l with
  | TRB :: r => Some (SArr q st NoDim, r)
  | TStar :: TRB :: r => Some (SArr q st Vla, r)
  | TDim e :: TRB :: r => Some (SArr q st (Expr e), r)
  | _ => None
  end.
(** the parameters of a function have different names *)
Definition same (a b : name) : bool := match a, b with User i, User j => Nat.eqb i j | Param i, Param j => Nat.eqb i j | _, _ => false end.
Fixpoint distinct (l : list (option name)) : bool :=
  match l with [] => true | None :: r => distinct r | Some x :: r => negb (existsb (fun y => match y with Some y => same x y | None => false end) r) && distinct r end.
(** declaration: qualifiers, type, declarator; the result is the type and name declared and the rest *)
Fixpoint rd_decl (f : nat) (l : list tok) : option (ty * option name * list tok) :=
  match f with
  | O => None
  | S f =>
    let (q, l) := rd_quals l in
    match l with
    | TBase b :: l => match rd_dcl f l with Some (s, n, l) => Some (apps s (Base q b), n, l) | None => None end
    | _ => None
    end
  end
with rd_dcl (f : nat) (l : list tok) : option (list step * option name * list tok) :=
  match f with
  | O => None
  | S f =>
    let behind (s : list step) (n : option name) (l : list tok) := match rd_suffixes f l with Some (s', l) => Some (s ++ s', n, l) | None => None end in
    match l with
    | TStar :: l => let (q, l) := rd_quals l in match rd_dcl f l with Some (s, n, l) => Some (s ++ [SPtr q], n, l) | None => None end
    | TAmp :: l => let (q, l) := rd_quals l in match rd_dcl f l with Some (s, n, l) => Some (s ++ [SRef q], n, l) | None => None end
    | TName n :: l => behind [] (Some n) l
    | TLP :: ((TStar :: _ | TAmp :: _ | TName _ :: _) as l) => match rd_dcl f l with Some (s, n, TRP :: l) => behind s n l | _ => None end
    | _ => behind [] None l
    end
  end
with rd_suffixes (f : nat) (l : list tok) : option (list step * list tok) :=
  match f with
  | O => None
  | S f =>
    match match l with TLB :: l => Some (rd_brackets l) | TLP :: l => Some (rd_params f l) | _ => None end with
    | Some (Some (s, l)) => match rd_suffixes f l with Some (s', l) => Some (s :: s', l) | None => None end
    | Some None => None
    | None => Some ([], l)
    end
  end
with rd_params (f : nat) (l : list tok) : option (step * list tok) :=
  match f with
  | O => None
  | S f =>
    match l with
    | TRP :: l => Some (SFun [] true, l)
    | TDots :: TRP :: l => Some (SFun [] true, l)
    | TBase 0 :: TRP :: l => Some (SFun [] false, l)
    | _ => match rd_list f l with Some (ps, va, l) => if distinct (map snd ps) then Some (SFun (map fst ps) va, l) else None | None => None end
    end
  end
with rd_list (f : nat) (l : list tok) : option (list (ty * option name) * bool * list tok) :=
  match f with
  | O => None
  | S f =>
    match rd_decl f l with
    | Some (t, n, TRP :: l) => Some ([(t, n)], false, l)
    | Some (t, n, TComma :: TDots :: TRP :: l) => Some ([(t, n)], true, l)
    | Some (t, n, TComma :: l) => match rd_list f l with Some (ps, va, l) => Some ((t, n) :: ps, va, l) | None => None end
    | _ => None
    end
  end.
(** the whole text declares the name with the type *)
Definition declares (l : list tok) (t : ty) (n : option name) : Prop := exists F, forall f, F <= f -> rd_decl f l = Some (t, n, []).
(** a reference is not directly one to an array or a function, and a single parameter without a name is not void; no reference reaches C code *)
Definition void_like (t : ty) : bool := match t with Base (Q false false false false) 0 => true | _ => false end.
Fixpoint ok (c : bool) (t : ty) : bool :=
  match t with
  | Base _ _ => true
  | Pointer _ t => ok c t
  | Array _ _ _ t => ok c t
  | Func ps va ret => forallb (ok c) ps && ok c ret && negb (negb c && negb va && match ps with [p] => void_like p | _ => false end)
  | Ref _ t => negb c && ok c t && match t with Array _ _ _ _ | Func _ _ _ => false | _ => true end
  end.
(** no reference *)
Fixpoint noref (t : ty) : bool :=
  match t with Base _ _ => true | Pointer _ t => noref t | Array _ _ _ t => noref t | Func ps _ ret => forallb noref ps && noref ret | Ref _ _ => false end.
