(** What a mangled name is meant to keep of a declaration. *)
From Coq Require Import Ascii String List Bool Arith.
From Verif.Mangle Require Import Model.
Import ListNotations.
Open Scope string_scope.
Open Scope list_scope.
Inductive qual := CK | CV | CA | CX.
(** Types up to what does not take part in overloading: no references, no dimensions, no outermost qualifiers of parameters, function pointers are functions. *)
Inductive nt :=
  | NQ (x : qual) (t : nt)
  | NPoly (d f v : nat) (asr : list (str * nt)) (t : nt)
  | NVoid
  | NBasic (k : nat)
  | NPtr (t : nt)
  | NArr (t : nt)
  | NFun (rets params : list nt)
  | NInst (k : ikind) (n : str) (ps : list nt)
  | NVar (k : kind)
  | NTuple (ts : list nt)
  | NZero
  | NOne
  | NQual (cs : list nt).
Definition nq (b : bool) (x : qual) (t : nt) : nt := if b then NQ x t else t.
(** param: t is the type of a parameter or a reference *)
Definition cv (md : mode) (param : bool) (q : quals) (t : nt) : nt :=
  if tm md then t
  else let u := nq (is_mutex q) CX t in
    if param then u else nq (is_const q) CK (nq (is_volatile q) CV (nq (is_atomic q) CA u)).
(** types without forall; the chain of a qualified type is a list *)
Fixpoint norm (md : mode) (param : bool) (t : ty) {struct t} : nt :=
  match t with
  | Void q => cv md param q NVoid
  | Basic q k => cv md param q (NBasic k)
  | Ptr q b => cv md param q (if isfun b then norm md false b else NPtr (norm md false b))
  | Arr q _ b => cv md param q (NArr (norm md false b))
  | Ref q b => cv md true q (norm md false b)
  | Fun _ _ rs ps => NFun (match rs with [] => [NVoid] | _ => map (norm md true) rs end) (map (norm md true) ps)
  | Inst k q n ps => cv md param q (NInst k n (if gp md then map (norm md false) ps else []))
  | Tuple q ts => cv md param q (NTuple (map (norm md false) ts))
  | VarArgs q => cv md param q (NInst TypeI #"__builtin_va_list" [])
  | Zero _ => NZero
  | One _ => NOne
  | Qual p c =>
      let chain := fix chain (t : ty) : list nt := match t with Qual p c => chain p ++ chain c | _ => [norm md param t] end in
      NQual (chain p ++ chain c)
  end.
(** no type has a forall clause *)
Fixpoint mono (t : ty) : bool :=
  match t with
  | Void _ | Basic _ _ | VarArgs _ | Zero _ | One _ => true
  | Ptr _ b | Arr _ _ b | Ref _ b => mono b
  | Fun fa asr rs ps => none fa && none asr && forallb mono rs && forallb mono ps
  | Inst _ _ _ ps => forallb mono ps
  | Tuple _ ts => forallb mono ts
  | Qual p c => mono p && mono c
  end.
(** a qualified type contains qualified types only as its own chain *)
Fixpoint noqual (t : ty) : bool :=
  match t with
  | Void _ | Basic _ _ | VarArgs _ | Zero _ | One _ => true
  | Ptr _ b | Arr _ _ b | Ref _ b => noqual b
  | Fun _ asr rs ps => forallb noqual rs && forallb noqual ps
  | Inst _ _ _ ps => forallb noqual ps
  | Tuple _ ts => forallb noqual ts
  | Qual p c => false
  end.
Fixpoint chainok (t : ty) : bool := match t with Qual p c => chainok p && chainok c | _ => noqual t end.
Fixpoint qualok (t : ty) : bool :=
  match t with
  | Void _ | Basic _ _ | VarArgs _ | Zero _ | One _ => true
  | Ptr _ b | Arr _ _ b | Ref _ b => qualok b
  | Fun _ asr rs ps => forallb qualok rs && forallb qualok ps
  | Inst _ _ _ ps => forallb qualok ps
  | Tuple _ ts => forallb qualok ts
  | Qual p c => chainok p && chainok c
  end.
Definition isdigit (c : ascii) : bool := Nat.leb 48 (nat_of_ascii c) && Nat.leb (nat_of_ascii c) 57.
(** a name does not start with a digit *)
Definition name_ok (n : str) : bool := match n with [] => true | c :: _ => negb (isdigit c) end.
(** g says which aggregates are generic: they are used with parameters, the others without *)
Definition generic := ikind -> str -> bool.
Fixpoint wf (g : generic) (t : ty) : bool :=
  match t with
  | Void _ | VarArgs _ | Zero _ | One _ => true
  | Basic _ k => Nat.ltb k 36
  | Ptr _ b | Arr _ _ b | Ref _ b => wf g b
  | Fun _ asr rs ps => forallb (fun a => name_ok (out_name (fst a)) && wf g (snd a)) asr && forallb (wf g) rs && forallb (wf g) ps
  | Inst k _ n ps => name_ok n && Bool.eqb (none ps) (negb (g k n)) && forallb (wf g) ps
  | Tuple _ ts => forallb (wf g) ts
  | Qual p c => wf g p && wf g c
  end.
Definition wfd (g : generic) (d : decl) : bool := name_ok (out_name (dname d)) && wf g (dty d).
(** the type g of va_list *)
Definition builtin_ok (g : generic) : bool := negb (g TypeI #"__builtin_va_list").
(** With forall clauses: the mangler keeps the number of variables of each kind, the assertions, and of each variable its kind. vs are the variables declared so far.
    A qualified type inside a qualified type loses its brackets, so that a type can be a list of types in its place. *)
Definition onhd (f : nt -> nt) (l : list nt) : list nt := match l with [] => [] | x :: r => f x :: r end.
Fixpoint erase (md : mode) (inq param : bool) (vs : vars) (t : ty) {struct t} : list nt * vars :=
  let each := fix each (param : bool) (vs : vars) (l : list ty) {struct l} : list nt * vars :=
    match l with
    | [] => ([], vs)
    | x :: r => let (a, v1) := erase md inq param vs x in let (b, v2) := each param v1 r in (a ++ b, v2)
    end in
  match t with
  | Void q => ([cv md param q NVoid], vs)
  | Basic q k => ([cv md param q (NBasic k)], vs)
  | Ptr q b => let (l, v) := erase md inq false vs b in (onhd (fun x => cv md param q (if isfun b then x else NPtr x)) l, v)
  | Arr q _ b => let (l, v) := erase md inq false vs b in (onhd (fun x => cv md param q (NArr x)) l, v)
  | Ref q b => let (l, v) := erase md inq false vs b in (onhd (cv md true q) l, v)
  | Fun fa asr rs ps =>
      let poly := negb (tm md) && negb (none fa && none asr) in
      let v0 := if poly then declare vs fa else vs in
      let (lr, v1) := each true v0 rs in
      let (lp, v2) := each true v1 ps in
      let f := NFun (if none rs then [NVoid] else lr) lp in
      ([if poly then NPoly (kcount Dtype fa) (kcount Ftype fa) (kcount Ttype fa) (map (fun a => (out_name (fst a), hd NVoid (fst (erase md false false v0 (snd a))))) asr) f else f], v2)
  | Inst k q n ps =>
      match (match k with TypeI => vfind vs n | _ => None end) with
      | Some kd => ([cv md param q (NVar kd)], vs)
      | None =>
          let (l, v) := each false vs ps in
          if gp md then ([cv md param q (NInst k n l)], v) else ([cv md param q (NInst k n [])], vs)
      end
  | Tuple q ts => let (l, v) := each false vs ts in (cv md param q (NTuple (firstn (length ts) l)) :: skipn (length ts) l, v)
  | VarArgs q => ([cv md param q (NInst TypeI #"__builtin_va_list" [])], vs)
  | Zero _ => ([NZero], vs)
  | One _ => ([NOne], vs)
  | Qual p c =>
      let (x, v1) := erase md true param vs p in
      let (y, v2) := erase md true param v1 c in
      (if inq then x ++ y else [NQual (x ++ y)], v2)
  end.
Definition erased (md : mode) (t : ty) : list nt := fst (erase md false false [] t).
(** renaming of type variables *)
Fixpoint rename (r : str -> str) (t : ty) : ty :=
  match t with
  | Ptr q b => Ptr q (rename r b)
  | Arr q d b => Arr q d (rename r b)
  | Ref q b => Ref q (rename r b)
  | Fun fa asr rs ps => Fun fa (map (fun a => (fst a, rename r (snd a))) asr) (map (rename r) rs) (map (rename r) ps)
  | Inst k q n ps => Inst k q (match k with TypeI => r n | _ => n end) (map (rename r) ps)
  | Tuple q ts => Tuple q (map (rename r) ts)
  | Qual p c => Qual (rename r p) (rename r c)
  | _ => t
  end.
(** When a forall clause has at most one variable of each kind, renaming each variable to a name for its kind (one that no program uses) makes equivalent types equal. *)
Definition canon (k : kind) : str := match k with Dtype => #"0D" | Ftype => #"0F" | Ttype => #"0T" end.
Definition to_canon (fa : list (str * kind)) (n : str) : str := match vfind (rev fa) n with Some k => canon k | None => n end.
Definition same_forall (md : mode) (t1 t2 : ty) : Prop :=
  match t1, t2 with
  | Fun fa1 as1 rs1 ps1, Fun fa2 as2 rs2 ps2 =>
      (forall k, In k (map snd fa1) <-> In k (map snd fa2)) /\
      map (fun a => (out_name (fst a), norm md false (rename (to_canon fa1) (snd a)))) as1 = map (fun a => (out_name (fst a), norm md false (rename (to_canon fa2) (snd a)))) as2 /\
      norm md false (Fun [] [] (map (rename (to_canon fa1)) rs1) (map (rename (to_canon fa1)) ps1)) = norm md false (Fun [] [] (map (rename (to_canon fa2)) rs2) (map (rename (to_canon fa2)) ps2))
  | _, _ => False
  end.
(** a function type with one forall clause, at most one variable of each kind, variables without parameters *)
Definition prenex (g : generic) (t : ty) : Prop :=
  match t with
  | Fun fa asr rs ps => NoDup (map snd fa) /\ (forall n, In n (map fst fa) -> g TypeI n = false) /\ forallb (fun a => mono (snd a) && qualok (snd a)) asr = true /\ forallb mono rs && forallb qualok rs = true /\ forallb mono ps && forallb qualok ps = true
  | _ => False
  end.
