(* Integer literals: how the parser turns the text of an integer constant into a typed constant.
   Modelled: lnthSuffix, valueToType, scanbin and build_constantInteger of
   src/Parser/ExpressionNode.cpp, lines 64-326, on a target with __int128 (x86_64 Linux:
   int 32 bits, long and long long 64 bits).

   Simplifications
   - A std::string is the list of its characters; s[length] is the null character, as the C++ library
     promises.  A store of '\0' into the string is a store into the list, and sscanf stops at it.
   - sscanf with %llx, %llo, %llu behaves as in glibc: a number that does not fit is stored as 2^64-1
     (strtoull).  A call that converts nothing leaves its target unset and is the outcome [Unset].
   - Signed overflow of an __int128 addition or multiplication is the outcome [Undef]; a left shift of
     an __int128 and the conversions to 64 bits wrap around, as g++ does.
   - Locations and the deletion of the string are left out. *)
From Coq Require Import ZArith Bool Ascii String List.
Import ListNotations.
Open Scope Z_scope.

Definition chars := list ascii.

Definition nul : ascii := "000"%char.

(* std::string::operator[] *)
Definition at_ (s : chars) (i : nat) : ascii := nth i s nul.

Definition code (c : ascii) : Z := Z.of_N (N_of_ascii c).

Definition eqc (a b : ascii) : bool := Ascii.eqb a b.

(* the character classes of src/Parser/ExpressionNode.cpp:55-61 and the sets given to find_last_of *)
Definition isL (c : ascii) : bool := eqc c "l" || eqc c "L".   (* line 66 *)
Definition isU (c : ascii) : bool := eqc c "u" || eqc c "U".   (* lines 88, 92, 158 *)
Definition isP (c : ascii) : bool := eqc c "p" || eqc c "P".   (* line 169 *)
Definition isZ (c : ascii) : bool := eqc c "z" || eqc c "Z".   (* line 172 *)
Definition isH (c : ascii) : bool := eqc c "h" || eqc c "H".   (* line 181 *)
Definition isN (c : ascii) : bool := eqc c "n" || eqc c "N".   (* line 184 *)
Definition checkB (c : ascii) : bool := eqc c "b" || eqc c "B". (* line 60 *)
Definition checkX (c : ascii) : bool := eqc c "x" || eqc c "X". (* line 61 *)
(* isdigit of the C library *)
Definition isdigit (c : ascii) : bool := (48 <=? code c) && (code c <=? 57).

(* std::string::find_last_of: the last place with a character of the set *)
Fixpoint find_last_of (p : ascii -> bool) (s : chars) : option nat :=
  match s with
  | [] => None
  | c :: s' => match find_last_of p s' with
               | Some i => Some (S i)
               | None => if p c then Some O else None
               end
  end.

(* std::string::rfind of a string of two equal characters *)
Fixpoint rfind2 (c : ascii) (s : chars) : option nat :=
  match s with
  | [] => None
  | a :: s' => match rfind2 c s' with
               | Some i => Some (S i)
               | None => if eqc a c && eqc (at_ s' 0) c then Some O else None
               end
  end.

(* std::string::erase( posn ) and erase( posn, n ) *)
Definition erase (s : chars) (posn : nat) : chars := firstn posn s.
Definition erase_n (s : chars) (posn n : nat) : chars := firstn posn s ++ skipn (posn + n) s.

(* a store into the string *)
Fixpoint set_at (s : chars) (i : nat) (c : ascii) : chars :=
  match s, i with
  | [], _ => []
  | _ :: s', O => c :: s'
  | a :: s', S i' => a :: set_at s' i' c
  end.

(* src/Parser/ExpressionNode.cpp:64-94 lnthSuffix: the string, type and ltype it leaves *)
Definition lnthSuffix (s : chars) (type ltype : Z) : chars * Z * Z :=
  match find_last_of isL s with
  | None => (s, type, ltype)
  | Some posn =>
    let e := (length s - 1)%nat in
    if Nat.eqb posn e then (s, 3, ltype) else
    let next := S posn in
    let '(ty, lty) :=
      if eqc (at_ s next) "3" then (2, 2)
      else if eqc (at_ s next) "6" then (3, 3)
      else if eqc (at_ s next) "8" then (1, 1)
      else if eqc (at_ s next) "1" then
        (if eqc (at_ s (S next)) "6" then (0, 0) else (5, 6))
      else (type, ltype) in
    let fx := if isU (at_ s e) then Some (at_ s e) else None in
    let s1 := erase s posn in
    let s2 :=
      if ty =? 5 then
        (let e1 := (length s1 - 1)%nat in if isU (at_ s1 e1) then erase s1 e1 else s1)
      else match fx with Some c => s1 ++ [c] | None => s1 end in
    (s2, ty, lty)
  end.

Definition INT_MAX := 2 ^ 31 - 1.
Definition UINT_MAX := 2 ^ 32 - 1.
Definition LONG_MAX := 2 ^ 63 - 1.
Definition ULONG_MAX := 2 ^ 64 - 1.
Definition LLONG_MAX := 2 ^ 63 - 1.

(* src/Parser/ExpressionNode.cpp:96-114 valueToType: the type and the Unsigned flag it leaves *)
Definition valueToType (v : Z) (dec un : bool) : Z * bool :=
  if v <=? INT_MAX then (2, un)
  else if (v <=? UINT_MAX) && negb dec then (2, true)
  else if v <=? LONG_MAX then (3, un)
  else if (v <=? ULONG_MAX) && (negb dec || (LONG_MAX =? LLONG_MAX)) then (3, true)
  else if v <=? LLONG_MAX then (4, un)
  else (4, true).

Definition w64 (v : Z) : Z := v mod 2 ^ 64.

(* src/Parser/ExpressionNode.cpp:116-125 scanbin, the loop from subscript i; the loop ends at the null
   character at the latest, so the length of the string is enough fuel. *)
Fixpoint scanbin_loop (fuel : nat) (s : chars) (i : nat) (v : Z) : option Z :=
  match fuel with
  | O => None
  | S f =>
    let v := if eqc (at_ s i) "1" then Z.lor v 1 else v in
    let i := S i in
    if Nat.eqb i (length s - 1 - 1) || (negb (eqc (at_ s i) "0") && negb (eqc (at_ s i) "1"))
    then Some v
    else scanbin_loop f s i (w64 (Z.shiftl v 1))
  end.

Definition scanbin (s : chars) : option Z := scanbin_loop (length s) s 2 0.

(* the digit a character stands for, 99 if none *)
Definition digit (c : ascii) : Z :=
  let n := code c in
  if (48 <=? n) && (n <=? 57) then n - 48
  else if (97 <=? n) && (n <=? 102) then n - 87
  else if (65 <=? n) && (n <=? 70) then n - 55
  else 99.

Fixpoint scan_digits (b : Z) (s : chars) (acc : option Z) : option Z :=
  match s with
  | [] => acc
  | c :: s' =>
    if digit c <? b
    then scan_digits b s' (Some (match acc with None => 0 | Some a => a end * b + digit c))
    else acc
  end.

(* sscanf( s, "%llx"/"%llo"/"%llu", &v ): digits of the base up to the first other character; %llx skips
   a prefix 0x; a number out of range becomes the largest one. *)
Definition scanf (b : Z) (s : chars) : option Z :=
  let s := if (b =? 16) && eqc (at_ s 0) "0" && checkX (at_ s 1) then skipn 2 s else s in
  match scan_digits b s None with
  | Some v => Some (Z.min v ULONG_MAX)
  | None => None
  end.

(* the lower-case hexadecimal digit of a number below 16 *)
Definition hexchar (d : Z) : ascii :=
  ascii_of_N (Z.to_N (if d <? 10 then 48 + d else 87 + d)).

Fixpoint hexdigits (fuel : nat) (v : Z) (acc : chars) : chars :=
  match fuel with
  | O => acc
  | S f => if v =? 0 then acc else hexdigits f (v / 16) (hexchar (v mod 16) :: acc)
  end.

(* sprintf( buf, "%#llx", v ): no prefix for zero *)
Definition hexprint (v : Z) : chars :=
  if v =? 0 then ["0"%char] else "0"%char :: "x"%char :: hexdigits 16 v [].

(* ast::BasicKind, the integer kinds in the table of src/Parser/ExpressionNode.cpp:128-132 *)
Inductive kind :=
| SignedChar | UnsignedChar | ShortSignedInt | ShortUnsignedInt | SignedInt | UnsignedInt
| LongSignedInt | LongUnsignedInt | LongLongSignedInt | LongLongUnsignedInt.

(* the table kind[Unsigned][type], src/Parser/ExpressionNode.cpp:128-132 *)
Definition kind_of (un : bool) (type : Z) : kind :=
  if un then
    if type =? 0 then ShortUnsignedInt else if type =? 1 then UnsignedChar
    else if type =? 2 then UnsignedInt else if type =? 3 then LongUnsignedInt
    else LongLongUnsignedInt
  else
    if type =? 0 then ShortSignedInt else if type =? 1 then SignedChar
    else if type =? 2 then SignedInt else if type =? 3 then LongSignedInt
    else LongLongSignedInt.

(* the table lnthsInt[Unsigned][ltype], src/Parser/ExpressionNode.cpp:134-137 *)
Definition lnthsInt (un : bool) (ltype : Z) : string :=
  (if (ltype =? 0)%Z then if un then "uint16_t" else "int16_t"
   else if (ltype =? 1)%Z then if un then "uint8_t" else "int8_t"
   else if (ltype =? 2)%Z then if un then "uint32_t" else "int32_t"
   else if (ltype =? 3)%Z then if un then "uint64_t" else "int64_t"
   else if (ltype =? 4)%Z then "size_t" else "uintptr_t")%string.

(* The expression built.  [Const k text v] is a ConstantExpr of the kind k with the text given to the C
   compiler and the value the translator works with. *)
Inductive expr :=
| Zero                                      (* ConstantExpr of ZeroType, "0", 0 *)
| One                                       (* ConstantExpr of OneType, "1", 1 *)
| Const (k : kind) (text : chars) (v : Z)
| CastK (k : kind) (e : expr)               (* explicit cast to a basic type *)
| CastN (name : string) (e : expr)          (* explicit cast to a named type *)
| Intptr (e : expr)                         (* intptr( e ) *)
| Compound (h l : expr).                    (* (unsigned int128){ h, l } *)

Inductive outcome (A : Type) :=
| Ok (a : A)
| Error            (* SemanticError, constant too large *)
| Undef            (* undefined behaviour: signed overflow *)
| Unset.           (* a value is used that was never set, or the assertion of line 301 fails *)
Arguments Ok {A}.
Arguments Error {A}.
Arguments Undef {A}.
Arguments Unset {A}.

Definition need {A B} (o : option A) (f : A -> outcome B) : outcome B :=
  match o with Some a => f a | None => Unset end.

(* src/Parser/ExpressionNode.cpp:157-191: Unsigned, type, ltype and the string after suffixes *)
Definition suffixes (s : chars) : bool * Z * Z * chars :=
  let un := match find_last_of isU s with Some _ => true | None => false end in
  if isdigit (at_ s (length s - 1)) then
    let '(s, ty, lty) := lnthSuffix s (-1) (-1) in (un, ty, lty, s)
  else
    match find_last_of isP s with
    | Some posn => (un, -1, 5, erase_n s posn 1)
    | None =>
    match find_last_of isZ s with
    | Some posn => (true, 2, 4, erase_n s posn 1)
    | None =>
    match rfind2 "h" s with
    | Some posn => (un, 1, -1, erase_n s posn 2)
    | None =>
    match rfind2 "H" s with
    | Some posn => (un, 1, -1, erase_n s posn 2)
    | None =>
    match find_last_of isH s with
    | Some posn => (un, 0, -1, erase_n s posn 1)
    | None =>
    match find_last_of isN s with
    | Some posn => (un, 2, -1, erase_n s posn 1)
    | None =>
    match rfind2 "l" s, rfind2 "L" s with
    | None, None => let '(s, ty, lty) := lnthSuffix s (-1) (-1) in (un, ty, lty, s)
    | _, _ => (un, 4, -1, s)
    end end end end end end end.

(* the first text, its value, the second text and its value *)
Record parts := Parts { p_str : chars; p_v : Z; p_str2 : chars; p_v2 : Z }.

Definition str2_0 : chars := ["0"; "x"; "0"]%char.

Definition single (s : chars) (v : Z) : parts := Parts s v str2_0 0.

(* src/Parser/ExpressionNode.cpp:201-217, hexadecimal *)
Definition hex_value (s : chars) (type : Z) : outcome parts :=
  if type <? 5 then need (scanf 16 s) (fun v => Ok (single s v))
  else
    let len := length s in
    if Nat.ltb (2 + 16 + 16) len then Error
    else if Nat.ltb (2 + 16) len then
      let s2 := ["0"; "x"]%char ++ skipn (len - 16) s in
      let s1 := firstn (len - 16) s in
      need (scanf 16 s2) (fun v2 => need (scanf 16 s1) (fun v => Ok (Parts s1 v s2 v2)))
    else need (scanf 16 s) (fun v => Ok (single s v)).

(* src/Parser/ExpressionNode.cpp:218-229, binary *)
Definition bin_value (s : chars) (type : Z) : outcome parts :=
  let len := length s in
  if (type =? 5) && Nat.ltb (2 + 64) len then
    if Nat.ltb (2 + 64 + 64) len then Error
    else
      let s2 := ["0"; "b"]%char ++ skipn (len - 64) s in
      let s1 := firstn (len - 64) s in
      need (scanbin s2) (fun v2 => need (scanbin s1) (fun v => Ok (Parts s1 v s2 v2)))
  else need (scanbin s) (fun v => Ok (single s v)).

(* src/Parser/ExpressionNode.cpp:230-260, octal *)
Definition oct_value (s : chars) (type : Z) : outcome parts :=
  if type <? 5 then need (scanf 8 s) (fun v => Ok (single s v))
  else
    let len := length s in
    if Nat.ltb (1 + 43) len || (Nat.eqb len (1 + 43) && (code "3" <? code (at_ s 0))) then Error
    else if Nat.leb len (1 + 21) then
      need (scanf 8 s) (fun v => Ok (single (hexprint v) v))
    else
      need (scanf 8 (skipn (len - 21) s)) (fun v0 =>
      let s := set_at s (len - 21) nul in
      need (scanf 8 (skipn (if Nat.eqb len 43 then 1 else 0) s)) (fun v1 =>
      let val := Z.lor v0 (Z.shiftl v1 63 mod 2 ^ 128) in
      let fin val :=
        let v := Z.shiftr val 64 in
        let v2 := w64 val in
        Ok (Parts (hexprint v) v (hexprint v2) v2) in
      if Nat.eqb len (1 + 43) then
        let s := set_at s 2 nul in
        need (scanf 8 (skipn 1 s)) (fun v2 =>
        fin (Z.lor val (Z.shiftl v2 126 mod 2 ^ 128)))
      else fin val)).

Definition P10 : Z := 10 ^ 19.

(* std::string operator>: the lexicographic order of the characters *)
Fixpoint greater (s t : chars) : bool :=
  match s, t with
  | _ :: _, [] => true
  | [], _ => false
  | a :: s', b :: t' => if eqc a b then greater s' t' else code b <? code a
  end.

Definition max_unsigned : chars :=
  list_ascii_of_string "340282366920938463463374607431768211455".
Definition max_signed : chars :=
  list_ascii_of_string "170141183460469231731687303715884105727".

(* the value of an __int128 operation, if it does not overflow *)
Definition fits128 {A} (v : Z) (f : Z -> outcome A) : outcome A :=
  if v <? 2 ^ 127 then f v else Undef.

(* src/Parser/ExpressionNode.cpp:261-293, decimal *)
Definition dec_value (s : chars) (type : Z) (un : bool) : outcome parts :=
  if type <? 5 then need (scanf 10 s) (fun v => Ok (single s v))
  else
    let len := length s in
    if Nat.eqb len 39 && greater s (if un then max_unsigned else max_signed) then Error
    else if Nat.leb len 19 then
      need (scanf 10 s) (fun v => Ok (single (hexprint v) v))
    else
      need (scanf 10 (skipn (len - 19) s)) (fun v0 =>
      let s := set_at s (len - 19) nul in
      need (scanf 10 (skipn (if Nat.eqb len 39 then 1 else 0) s)) (fun v1 =>
      fits128 (v1 * P10) (fun m =>
      fits128 (v0 + m) (fun val =>
      let fin val :=
        let v := Z.shiftr val 64 in
        let v2 := w64 val in
        Ok (Parts (hexprint v) v (hexprint v2) v2) in
      if Nat.eqb len 39 then
        let s := set_at s 1 nul in
        need (scanf 10 s) (fun v2 =>
        fits128 (v2 * P10) (fun m1 =>
        fits128 (m1 * P10) (fun m2 =>
        fits128 (val + m2) fin)))
      else fin val)))).

(* src/Parser/ExpressionNode.cpp:295-321: type from the value, and the expression *)
Definition finish (un : bool) (type ltype : Z) (dec : bool) (p : parts) : outcome expr :=
  let '(type, un) := if type =? -1 then valueToType (p_v p) dec un else (type, un) in
  if negb ((0 <=? type) && (type <=? 6)) then Unset else
  let ret := Const (kind_of un type) (p_str p) (p_v p) in
  Ok (if un && (type <? 2) then CastK (kind_of un type) ret
      else if negb (ltype =? -1) then
        if ltype =? 6 then
          let ret2 := Const LongLongSignedInt (p_str2 p) (p_v2 p) in
          if p_v2 p =? 0 then Compound ret2 ret else Compound ret ret2
        else
          let ret := CastN (lnthsInt un ltype) ret in
          if ltype =? 5 then Intptr ret else ret
      else ret).

(* src/Parser/ExpressionNode.cpp:127-326 build_constantInteger *)
Definition build_constantInteger (s : chars) : outcome expr :=
  if list_eq_dec ascii_dec s ["0"%char] then Ok Zero
  else if list_eq_dec ascii_dec s ["1"%char] then Ok One
  else
    let '(un, type, ltype, s) := suffixes s in
    let dec := negb (eqc (at_ s 0) "0") in
    match (if dec then dec_value s type un
           else if checkX (at_ s 1) then hex_value s type
           else if checkB (at_ s 1) then bin_value s type
           else oct_value s type) with
    | Ok p => finish un type ltype dec p
    | Error => Error
    | Undef => Undef
    | Unset => Unset
    end.
