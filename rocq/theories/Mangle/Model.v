(** Name mangling: src/SymTab/Mangler.cpp:33-347 and src/SymTab/ManglerCommon.cpp:22-123; operator names: src/CodeGen/OperatorTable.cpp:22-97. *)
From Coq Require Import Decimal DecimalNat Ascii String List Bool Arith ZArith.
Import ListNotations.
Definition str := list ascii.
Definition s_ (x : string) : str := list_ascii_of_string x.
Notation "# x" := (s_ x) (at level 2, format "# x").
Definition ch (x : string) : ascii := match x with String c _ => c | EmptyString => "000"%char end.
Open Scope string_scope.
Open Scope list_scope.
(** std::to_string of a size *)
Fixpoint digits (u : uint) : str :=
  match u with
  | Nil => []
  | D0 u => ch "0" :: digits u | D1 u => ch "1" :: digits u | D2 u => ch "2" :: digits u | D3 u => ch "3" :: digits u | D4 u => ch "4" :: digits u
  | D5 u => ch "5" :: digits u | D6 u => ch "6" :: digits u | D7 u => ch "7" :: digits u | D8 u => ch "8" :: digits u | D9 u => ch "9" :: digits u
  end.
Definition num (n : nat) : str := digits (Nat.to_uint n).
Fixpoint eqs (a b : str) : bool :=
  match a, b with
  | [], [] => true
  | x :: a', y :: b' => Ascii.eqb x y && eqs a' b'
  | _, _ => false
  end.
(** CV qualifiers; restrict is not mangled *)
Record quals := Q { is_const : bool; is_volatile : bool; is_atomic : bool; is_mutex : bool }.
Definition noq : quals := Q false false false false.
(** kinds of type variables; the other three kinds fail an assertion in the mangler, 307-308 *)
Inductive kind := Dtype | Ftype | Ttype.
Inductive ikind := Struct | Union | Enum | TypeI.
(** Types. Not modelled: trait instances as types; function types have no qualifiers; the parameters of an instance are types, which is asserted (194). *)
Inductive ty :=
  | Void (q : quals)
  | Basic (q : quals) (k : nat)
  | Ptr (q : quals) (t : ty)
  | Arr (q : quals) (dim : nat) (t : ty)
  | Ref (q : quals) (t : ty)
  | Fun (fa : list (str * kind)) (asr : list (str * ty)) (rets params : list ty)
  | Inst (k : ikind) (q : quals) (n : str) (ps : list ty)
  | Tuple (q : quals) (ts : list ty)
  | VarArgs (q : quals)
  | Zero (q : quals)
  | One (q : quals)
  | Qual (p c : ty).
(** ManglerCommon.cpp:43-80 *)
Definition basicTypes : list string := ["b"; "c"; "a"; "h"; "s"; "t"; "i"; "j"; "l"; "m"; "x"; "y"; "n"; "o"; "DF16_"; "CDF16_"; "DF32_"; "CDF32_"; "f"; "Cf"; "DF32x_"; "CDF32x_"; "DF64_"; "CDF64_"; "d"; "Cd"; "DF64x_"; "CDF64x_"; "Dq"; "e"; "Ce"; "g"; "DF128_"; "CDF128_"; "DF128x_"; "CDF128x_"].
Definition basic (k : nat) : str := #(nth k basicTypes "").
(** ManglerCommon.cpp:101-108, Dtype, Ftype and Ttype *)
Definition typeVariable (k : kind) : str := match k with Dtype => #"BD" | Ftype => #"BF" | Ttype => #"BT" end.
Definition ichar (k : ikind) : str := match k with Struct => #"S" | Union => #"U" | Enum => #"M" | TypeI => #"Y" end.
(** OperatorTable.cpp:22-66: input name and output name *)
Definition ops : list (string * string) := [("?[?]", "_operator_index"); ("?{}", "_constructor"); ("^?{}", "_destructor"); ("?()", "_operator_call"); ("?++", "_operator_postincr"); ("?--", "_operator_postdecr"); ("*?", "_operator_deref"); ("+?", "_operator_unaryplus"); ("-?", "_operator_unaryminus"); ("~?", "_operator_bitnot"); ("!?", "_operator_lognot"); ("++?", "_operator_preincr"); ("--?", "_operator_predecr"); ("?\?", "_operator_exponential"); ("?*?", "_operator_multiply"); ("?/?", "_operator_divide"); ("?%?", "_operator_modulus"); ("?+?", "_operator_add"); ("?-?", "_operator_subtract"); ("?<<?", "_operator_shiftleft"); ("?>>?", "_operator_shiftright"); ("?<?", "_operator_less"); ("?>?", "_operator_greater"); ("?<=?", "_operator_lessequal"); ("?>=?", "_operator_greaterequal"); ("?==?", "_operator_equal"); ("?!=?", "_operator_notequal"); ("?&?", "_operator_bitand"); ("?^?", "_operator_bitxor"); ("?|?", "_operator_bitor"); ("?=?", "_operator_assign"); ("?\=?", "_operator_expassign"); ("?*=?", "_operator_multassign"); ("?/=?", "_operator_divassign"); ("?%=?", "_operator_modassign"); ("?+=?", "_operator_addassign"); ("?-=?", "_operator_subassign"); ("?<<=?", "_operator_shiftleftassign"); ("?>>=?", "_operator_shiftrightassign"); ("?&=?", "_operator_bitandassign"); ("?^=?", "_operator_bitxorassign"); ("?|=?", "_operator_bitorassign")].
Fixpoint assoc (l : list (string * string)) (n : str) : option str :=
  match l with
  | [] => None
  | (a, b) :: r => if eqs #a n then Some (s_ b) else assoc r n
  end.
(** operatorLookup, 70-86: find_first_of( "?^*+-!", 0, 1 ) looks for the first character of the list only. A name with a ? that is not in the table fails an assertion (here: stays). *)
Definition out_name (n : str) : str := if existsb (Ascii.eqb (ch "?")) n then match assoc ops n with Some o => o | None => n end else n.
(** the mode: typeMode and mangleGenericParams *)
Record mode := Md { tm : bool; gp : bool }.
Definition vars := list (str * kind).
Fixpoint vfind (vs : vars) (n : str) : option kind :=
  match vs with
  | [] => None
  | (m, k) :: r => if eqs m n then Some k else vfind r n
  end.
Definition kq (b : bool) (x : string) : str := if b then s_ x else [].
(** printQualifiers, 322-341 *)
Definition printq (md : mode) (inf : bool) (q : quals) : str :=
  if tm md then [] else (if inf then [] else kq (is_const q) "K" ++ kq (is_volatile q) "V" ++ kq (is_atomic q) "DA") ++ kq (is_mutex q) "X".
Definition kcount (k : kind) (fa : list (str * kind)) : nat :=
  length (filter (fun p => match snd p, k with Dtype, Dtype | Ftype, Ftype | Ttype, Ttype => true | _, _ => false end) fa).
(** varNums after a forall clause, 310: every variable gets the number nextVarNum, which stays 0. A later entry replaces an earlier one of the same name. *)
Definition declare (vs : vars) (fa : list (str * kind)) : vars := rev fa ++ vs.
Definition lenname (n : str) : str := num (length n) ++ n.
Definition isfun (t : ty) : bool := match t with Fun _ _ _ _ => true | _ => false end.
Definition none {A} (l : list A) : bool := match l with [] => true | _ => false end.
(** The Mangler. inq = inQualifiedType; inf = inFunctionType at the start of the visit: printQualifiers switches it off for the rest of the visit, 337-340; in a reference the
    switching off comes after switching it on, 165-167, so the base is visited with false. The result holds the varNums after the visit: they are not restored. *)
Fixpoint mangle (md : mode) (inq inf : bool) (vs : vars) (t : ty) {struct t} : str * vars :=
  let each := fix each (inf : bool) (vs : vars) (l : list ty) {struct l} : str * vars :=
    match l with
    | [] => ([], vs)
    | x :: r => let (a, v1) := mangle md inq inf vs x in let (b, v2) := each inf v1 r in (a ++ b, v2)
    end in
  match t with
  | Void q => (printq md inf q ++ #"v", vs)                                                        (* 136-139 *)
  | Basic q k => (printq md inf q ++ basic k, vs)                                                 (* 141-145 *)
  | Ptr q b => let (x, v) := mangle md inq false vs b in (printq md inf q ++ (if isfun b then [] else #"P") ++ x, v)   (* 147-152 *)
  | Arr q _ b => let (x, v) := mangle md inq false vs b in (printq md inf q ++ #"A0" ++ x, v)      (* 154-159 *)
  | Ref q b => let (x, v) := mangle md inq false vs b in (printq md true q ++ x, v)               (* 161-168 *)
  | Fun fa asr rets params =>                                                                     (* 170-182 and 288-329 *)
      let poly := negb (tm md) && negb (none fa && none asr) in
      let v0 := if poly then declare vs fa else vs in
      let q := if poly
               then #"Q" ++ num (kcount Dtype fa) ++ #"_" ++ num (kcount Ftype fa) ++ #"_" ++ num (kcount Ttype fa) ++ #"_" ++ num (length asr) ++ #"_"
                    ++ concat (map (fun a => #"_X" ++ lenname (out_name (fst a)) ++ fst (mangle md false false v0 (snd a))) asr) ++ #"_"
               else [] in
      let (rs, v1) := each true v0 rets in
      let (ps, v2) := each true v1 params in
      (q ++ #"F" ++ (if none rets then #"v" else rs) ++ #"_" ++ ps ++ #"_", v2)
  | Inst k q n ps =>                                                                              (* 184-227 *)
      match (match k with TypeI => vfind vs n | _ => None end) with
      | Some kd => (printq md inf q ++ typeVariable kd ++ #"0", vs)
      | None =>
          let (x, v) := each false vs ps in
          if gp md && negb (none ps) then (printq md inf q ++ ichar k ++ lenname n ++ #"_" ++ x ++ #"_", v)
          else (printq md inf q ++ ichar k ++ lenname n, vs)
      end
  | Tuple q ts => let (x, v) := each false vs ts in (printq md inf q ++ #"T" ++ num (length ts) ++ x, v)   (* 234-238 *)
  | VarArgs q => (printq md inf q ++ #"Y" ++ lenname #"__builtin_va_list", vs)                      (* 240-244 *)
  | Zero _ => (#"Z", vs)                                                                        (* 246-252 *)
  | One _ => (#"O", vs)
  | Qual p c =>                                                                                   (* 254-268 *)
      let (x, v1) := mangle md true inf vs p in
      let (y, v2) := mangle md true inf v1 c in
      (if inq then x ++ y else #"N" ++ x ++ y ++ #"E", v2)
  end.
(** linkage of a declaration; the overrideable ones *)
Inductive linkage := Plain | AutoGen | Intrinsic.
Record decl := De { dname : str; dty : ty; dlink : linkage }.
(** mangleDecl at the top level, 99-126; over = mangleOverridable *)
Definition mangle_decl (md : mode) (over : bool) (d : decl) : str :=
  #"_X" ++ lenname (out_name (dname d)) ++ fst (mangle md false false [] (dty d)) ++ (if over then match dlink d with Plain => [] | AutoGen => #"autogen__" | Intrinsic => #"intrinsic__" end else []).
