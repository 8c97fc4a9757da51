(* What an integer literal means, stated without the translator: how literals are spelled, the number
   they denote, and the type C gives them (C11 6.4.4.1, with the sizes of x86_64 Linux).  Only the type
   of the expressions built is taken from the model, to say what can be seen of them. *)
From Coq Require Import ZArith Bool Ascii String List.
From Verif Require Import IntConst.Model.
Import ListNotations.
Open Scope Z_scope.

Definition text := list ascii.
Definition txt (s : string) : text := list_ascii_of_string s.

Inductive radix := Bin | Oct | Dec | Hex.

Definition base (r : radix) : Z := match r with Bin => 2 | Oct => 8 | Dec => 10 | Hex => 16 end.

(* the digits, in both cases of letters, in order *)
Definition lower : text := txt "0123456789abcdef".
Definition upper : text := txt "0123456789ABCDEF".

(* [stands c d]: the character c is the digit d *)
Definition stands (c : ascii) (d : Z) : Prop :=
  0 <= d < 16 /\ (nth_error lower (Z.to_nat d) = Some c \/ nth_error upper (Z.to_nat d) = Some c).

(* [denotes b ds n]: read in base b, the digits ds are the number n *)
Inductive denotes (b : Z) : text -> Z -> Prop :=
| den_nil : denotes b [] 0
| den_snoc ds c d n : denotes b ds n -> stands c d -> d < b -> denotes b (ds ++ [c]) (n * b + d).

Definition prefixes (r : radix) : list text :=
  match r with
  | Bin => [txt "0b"; txt "0B"]
  | Oct => [txt "0"]
  | Dec => [[]]
  | Hex => [txt "0x"; txt "0X"]
  end.

(* What suffixes mean: the signedness and length asked for.  Imaginary literals (i, I) are not
   considered. *)
Inductive len := Nolen | Ll | Lll | Lhh | Lh | Ln | L8 | L16 | L32 | L64 | L128.

Definition len_texts (l : len) : list text :=
  match l with
  | Nolen => [[]]
  | Ll => [txt "l"; txt "L"]
  | Lll => [txt "ll"; txt "LL"]
  | Lhh => [txt "hh"; txt "HH"]
  | Lh => [txt "h"; txt "H"]
  | Ln => [txt "n"; txt "N"]
  | L8 => [txt "l8"; txt "L8"]
  | L16 => [txt "l16"; txt "L16"]
  | L32 => [txt "l32"; txt "L32"]
  | L64 => [txt "l64"; txt "L64"]
  | L128 => [txt "l128"; txt "L128"]
  end.

Definition u_texts : list text := [txt "u"; txt "U"].

Inductive suffix :=
| Plain (l : len)      (* a length only, perhaps none *)
| Before (l : len)     (* u and then a length *)
| After (l : len)      (* a length and then u *)
| Size                 (* z *)
| Pointer.             (* p *)

Definition suffix_texts (s : suffix) : list text :=
  match s with
  | Plain l => len_texts l
  | Before l => flat_map (fun u => map (fun t => u ++ t) (len_texts l)) u_texts
  | After l => flat_map (fun t => map (fun u => t ++ u) u_texts) (len_texts l)
  | Size => [txt "z"; txt "Z"]
  | Pointer => [txt "p"; txt "P"]
  end.

(* [literal r ds su s n]: s spells a literal of the radix r with the digits ds and the suffix su, and n
   is its number.  The digits of an octal literal may be missing (the literal 0). *)
Definition literal (r : radix) (ds : text) (su : suffix) (s : text) (n : Z) : Prop :=
  exists pre suf,
    s = pre ++ ds ++ suf /\ In pre (prefixes r) /\ In suf (suffix_texts su) /\
    denotes (base r) ds n /\ (r <> Oct -> ds <> []) /\
    (r = Dec -> forall ds', ds <> "0"%char :: ds').

(* ---- types ---- *)

Inductive ctype := CInt | CUInt | CLong | CULong | CLLong | CULLong.

Definition ctype_max (t : ctype) : Z :=
  match t with
  | CInt => 2 ^ 31 - 1 | CUInt => 2 ^ 32 - 1
  | CLong | CLLong => 2 ^ 63 - 1 | CULong | CULLong => 2 ^ 64 - 1
  end.

(* C11 6.4.4.1, the table: the types to be tried in order *)
Definition candidates (r : radix) (su : suffix) : list ctype :=
  match su with
  | Plain Nolen => match r with Dec => [CInt; CLong; CLLong]
                              | _ => [CInt; CUInt; CLong; CULong; CLLong; CULLong] end
  | Plain Ll => match r with Dec => [CLong; CLLong]
                           | _ => [CLong; CULong; CLLong; CULLong] end
  | Plain Lll => match r with Dec => [CLLong] | _ => [CLLong; CULLong] end
  | Before Nolen | After Nolen => [CUInt; CULong; CULLong]
  | Before Ll | After Ll => [CULong; CULLong]
  | Before Lll | After Lll => [CULLong]
  | _ => []
  end.

(* the type of the literal in C: the first candidate that can hold the number *)
Definition c_type (r : radix) (su : suffix) (n : Z) : option ctype :=
  find (fun t => n <=? ctype_max t) (candidates r su).

(* suffixes C itself knows *)
Definition c_suffix (su : suffix) : Prop :=
  match su with
  | Plain l | Before l | After l => l = Nolen \/ l = Ll \/ l = Lll
  | _ => False
  end.

Definition len_of (su : suffix) : len :=
  match su with Plain l | Before l | After l => l | _ => Nolen end.

Definition unsigned (su : suffix) : bool :=
  match su with Plain _ | Pointer => false | Before _ | After _ | Size => true end.

(* ---- what can be seen of the expression built ---- *)

(* The number the translator takes the expression for, casts aside.  The pair is given to the
   constructor of unsigned int128 with the upper half first (libcfa/prelude/builtins.c:118-120). *)
Fixpoint value_of (e : expr) : Z :=
  match e with
  | Zero => 0
  | One => 1
  | Const _ _ v => v
  | CastK _ e | CastN _ e | Intptr e => value_of e
  | Compound h l => value_of h * 2 ^ 64 + value_of l
  end.

(* the text the C compiler is given for the constant, casts aside *)
Fixpoint text_of (e : expr) : option text :=
  match e with
  | Zero => Some (txt "0")
  | One => Some (txt "1")
  | Const _ t _ => Some t
  | CastK _ e | CastN _ e | Intptr e => text_of e
  | Compound _ _ => None
  end.

(* the C type of a bare constant, if it is one of the six *)
Definition type_of (e : expr) : option ctype :=
  match e with
  | Const SignedInt _ _ => Some CInt
  | Const UnsignedInt _ _ => Some CUInt
  | Const LongSignedInt _ _ => Some CLong
  | Const LongUnsignedInt _ _ => Some CULong
  | Const LongLongSignedInt _ _ => Some CLLong
  | Const LongLongUnsignedInt _ _ => Some CULLong
  | _ => None
  end.

(* Where the translator departs from C on the type; used to say exactly when. *)
Definition departs (r : radix) (su : suffix) (n : Z) : Prop :=
  match su with
  | Plain Nolen => r = Dec /\ 2 ^ 63 <= n
  | Before Nolen | After Nolen => r = Dec /\ 2 ^ 31 <= n < 2 ^ 32
  | Plain Ll | Plain Lll => 2 ^ 63 <= n
  | After Ll => n < 2 ^ 31 \/ (r <> Dec /\ n < 2 ^ 32)
  | _ => False
  end.

(* the binary digits at the end that are not read: two, less the characters of the suffix that is kept,
   unless there are at most two characters after the prefix *)
Definition unread (digits : nat) (su : suffix) : nat :=
  let kept := match su with
              | Plain (Nolen | Lhh | Lh | Ln | L8 | L16 | L32 | L64 | L128) | Size | Pointer => 0
              | Plain Ll => 1
              | Plain Lll | Before Ll => 2
              | Before Lll | After Lll => 3
              | Before L128 | After L128 => 0
              | _ => 1
              end%nat in
  if Nat.leb (digits + kept) 2 then 0 else Nat.min digits (2 - kept).
