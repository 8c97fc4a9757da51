(** The demangler: src/SymTab/Demangle.cpp:31-324. Positions and numbers are size_t: sums are modulo 2^64. Simplifications: strings are shorter than 2^32 characters (isPrefix takes an
    unsigned int position, Common/Utility.hpp:52-55); the printing of the type (genType) is not modelled, the result is the type; qualifiers of function types are dropped. *)
From Coq Require Import Decimal DecimalNat DecimalN Ascii String List Bool Arith ZArith.
From Verif.Mangle Require Import Model.
Import ListNotations.
Open Scope string_scope.
Open Scope list_scope.
Open Scope Z_scope.
Definition two64 : Z := 2 ^ 64.
Definition size (s : str) : Z := Z.of_nat (length s).
Definition rest (s : str) (i : Z) : str := skipn (Z.to_nat i) s.
Definition done (s : str) (i : Z) : bool := size s <=? i.
Fixpoint prefixb (p s : str) : bool :=
  match p, s with
  | [], _ => true
  | c :: p', d :: s' => Ascii.eqb c d && prefixb p' s'
  | _, [] => false
  end.
(** isPrefix, 131-138: the position after the prefix *)
Definition is_prefix (s : str) (i : Z) (p : str) : option Z := if prefixb p (rest s i) then Some (i + size p) else None.
(** expect, 48, when it succeeds *)
Definition expect (s : str) (i : Z) (c : ascii) : option Z := match rest s i with d :: _ => if Ascii.eqb c d then Some (i + 1) else None | [] => None end.
Definition isdig (c : ascii) : bool := Nat.leb 48 (nat_of_ascii c) && Nat.leb (nat_of_ascii c) 57.
Fixpoint span (s : str) : str := match s with c :: r => if isdig c then c :: span r else [] | [] => [] end.
Fixpoint value (s : str) (v : Z) : Z := match s with c :: r => value r (10 * v + (Z.of_nat (nat_of_ascii c) - 48)) | [] => v end.
(** extractNumber, 108-119: reading into a size_t fails when there are no digits or the number is too large *)
Definition number (s : str) (i : Z) : option (Z * Z) :=
  let d := span (rest s i) in
  match d with
  | [] => None
  | _ => if value d 0 <? two64 then Some (value d 0, i + size d) else None
  end.
(** extractName, 121-129; substr stops at the end of the string *)
Definition name (s : str) (i : Z) : option (str * Z) :=
  match number s i with
  | None => None
  | Some (len, j) =>
      let e := (j + len) mod two64 in
      if size s <? e then None else Some (firstn (Z.to_nat (Z.min len (size s - j))) (rest s j), e)
  end.
(** Null = nullptr; Abort = assertion "Unhandled type letter" *)
Inductive out (A : Type) := Null | Abort | Fuel | Got (t : A) (i : Z).
Arguments Null {A}. Arguments Abort {A}. Arguments Fuel {A}. Arguments Got {A}.
Definition bind {A B} (r : out A) (f : A -> Z -> out B) : out B := match r with Got t i => f t i | Null => Null | Abort => Abort | Fuel => Fuel end.
(** the qualifiers in the order of the map, 276-283 *)
Fixpoint quals_ (n : nat) (s : str) (i : Z) (q : quals) : quals * Z :=
  match n with
  | O => (q, i)
  | S n' =>
      match is_prefix s i #"K" with
      | Some j => quals_ n' s j (Q true (is_volatile q) (is_atomic q) (is_mutex q))
      | None =>
      match is_prefix s i #"V" with
      | Some j => quals_ n' s j (Q (is_const q) true (is_atomic q) (is_mutex q))
      | None =>
      match is_prefix s i #"X" with
      | Some j => quals_ n' s j (Q (is_const q) (is_volatile q) (is_atomic q) true)
      | None =>
      match is_prefix s i #"DA" with
      | Some j => quals_ n' s j (Q (is_const q) (is_volatile q) true (is_mutex q))
      | None => (q, i)
      end end end end
  end.
(** the forall clause, 253-274: the position after it; None = nullptr *)
Definition forall_ (s : str) (i : Z) : option Z :=
  match is_prefix s i #"Q" with
  | None => Some i
  | Some j =>
      match number s j with
      | None => None
      | Some (_, j) =>
      match expect s j (ch "_") with
      | None => None
      | Some j =>
      match number s j with
      | None => None
      | Some (_, j) =>
      match expect s j (ch "_") with
      | None => None
      | Some j =>
      match number s j with
      | None => None
      | Some (_, j) =>
      match expect s j (ch "_") with
      | None => None
      | Some j =>
      match number s j with
      | None => None
      | Some (a, j) =>
      match expect s j (ch "_") with
      | None => None
      | Some j => if 0 <? a then None else expect s j (ch "_")
      end end end end end end end end
  end.
(** the table of parsers in the order of the constructor, 70-106 *)
Inductive parser := PBasic (k : nat) | PVar (n : string) | PVoid | PFun | PPtr | PArr | PTuple | PInst (k : ikind) | PZero | POne.
Definition parsers : list (string * parser) :=
  combine basicTypes (map PBasic (seq 0 36)) ++
  [("BD", PVar "DT"); ("BDS", PVar "DST"); ("BO", PVar "OT"); ("BF", PVar "FT"); ("BT", PVar "TT"); ("BAL", PVar "ALT");
   ("v", PVoid); ("F", PFun); ("P", PPtr); ("A", PArr); ("T", PTuple); ("S", PInst Struct); ("U", PInst Union); ("M", PInst Enum); ("Y", PInst TypeI); ("Z", PZero); ("O", POne)].
Fixpoint pick (l : list (string * parser)) (s : str) (i : Z) : option (parser * Z) :=
  match l with
  | [] => None
  | (x, p) :: r => match is_prefix s i #x with Some j => Some (p, j) | None => pick r s i end
  end.
(** std::to_string of a size_t *)
Definition znum (z : Z) : str := digits (N.to_uint (Z.to_N z)).
(** parseType, 250-293, with the parsers, 163-248; params is the loop of parseFunction, 173-180, comps that of parseTuple, 189-196 *)
Fixpoint parse (fuel : nat) (s : str) (i : Z) {struct fuel} : out ty :=
  match fuel with
  | O => Fuel
  | S f =>
      if done s i then Null
      else match forall_ s i with
           | None => Null
           | Some j =>
               let (q, j) := quals_ (S (length s)) s j noq in
               match pick parsers s j with
               | None => Abort
               | Some (PBasic k, j) => Got (Basic q k) j
               | Some (PVar n, j) => match number s j with Some (v, j) => Got (Inst TypeI q (#n ++ znum v) []) j | None => Null end
               | Some (PVoid, j) => Got (Void q) j
               | Some (PFun, j) =>
                   if done s j then Null
                   else bind (parse f s j) (fun r j =>
                          match expect s j (ch "_") with
                          | None => Null
                          | Some j => bind (params f s j []) (fun ps j => Got (Fun [] [] [r] ps) j)
                          end)
               | Some (PPtr, j) => bind (parse f s j) (fun t j => Got (Ptr q t) j)
               | Some (PArr, j) => match number s j with Some (v, j) => bind (parse f s j) (fun t j => Got (Arr q (Z.to_nat v) t) j) | None => Null end
               | Some (PTuple, j) => match number s j with Some (v, j) => bind (comps f s v j []) (fun ts j => Got (Tuple q ts) j) | None => Null end
               | Some (PInst k, j) => match name s j with Some (n, j) => Got (Inst k q n []) j | None => Null end
               | Some (PZero, j) => Got (Zero q) j
               | Some (POne, j) => Got (One q) j
               end
           end
  end
with params (fuel : nat) (s : str) (i : Z) (acc : list ty) {struct fuel} : out (list ty) :=
  match fuel with
  | O => Fuel
  | S f =>
      if done s i then Null
      else match expect s i (ch "_") with
           | Some _ => Got acc i                   (* the _ is not consumed *)
           | None => bind (parse f s i) (fun t j => params f s j (acc ++ [t]))
           end
  end
with comps (fuel : nat) (s : str) (n : Z) (i : Z) (acc : list ty) {struct fuel} : out (list ty) :=
  match fuel with
  | O => Fuel
  | S f =>
      if n <=? 0 then Got acc i
      else if done s i then Null
      else bind (parse f s i) (fun t j => comps f s (n - 1) j (acc ++ [t]))
  end.
Definition back (s : str) : ascii := last s "000"%char.
(** the loop that removes the scope number, 150-154; None = the function returns false *)
Fixpoint chop (n : nat) (s : str) (i : Z) : option str :=
  match n with
  | O => Some s
  | S n' => if isdig (back s) then (let s1 := removelast s in if size s1 <=? i then None else chop n' s1 i) else Some s
  end.
(** stripMangleName, 141-161: the name, the shortened string and the position of the type *)
Definition strip (s : str) : option (str * str * Z) :=
  if size s <? 4 then None
  else match is_prefix s 0 #"_X" with
       | None => None
       | Some i =>
           if negb (isdig (back s)) then None
           else match name s i with
                | None => None
                | Some (n, i) =>
                    match chop (length s) s i with
                    | None => None
                    | Some s1 => if Ascii.eqb (back s1) (ch "_") then (let s2 := removelast s1 in if i <? size s2 then Some (n, s2, i) else None) else None
                    end
                end
       end.
Fixpoint rassoc (l : list (string * string)) (n : str) : option str :=
  match l with
  | [] => None
  | (a, b) :: r => if eqs #b n then Some #a else rassoc r n
  end.
(** operatorLookupByOutput, OperatorTable.cpp:99-107 *)
Definition in_name (n : str) : str := match n with c :: _ => if Ascii.eqb c (ch "_") then match rassoc ops n with Some a => a | None => n end else n | [] => n end.
Inductive result := Same | Aborts | NoFuel | Named (n : str) (t : ty).
(** parse and demangle, 295-313 *)
Definition demangle (fuel : nat) (s : str) : result :=
  match strip s with
  | None => Same
  | Some (n, s2, i) => match parse fuel s2 i with Null => Same | Abort => Aborts | Fuel => NoFuel | Got t _ => Named (in_name n) t end
  end.
(** scopedMangleName, AST/Decl.hpp:83, in the default mode *)
Definition scoped (over : bool) (d : decl) (level : nat) : str := mangle_decl (Md false true) over d ++ #"_" ++ num level.
