(** Model of src/ResolvExpr/Cost.hpp.  A cost is its 64-bit word [all] (little-endian layout, lines 28-46):
    byte 0 reference, 1 spec, 2 var, 3 sign, 4 safe, 5 poly, 6 implicit, 7 unsafe. *)
From Coq Require Import ZArith List Bool.
Import ListNotations.
Open Scope Z_scope.

Definition M64 : Z := 2 ^ 64.
(** Cost.hpp:31-38, byte i of the word *)
Definition byte (i : Z) (c : Z) : Z := c / 256 ^ i mod 256.
(** Cost.hpp:47-48 *)
Definition correctb : Z := 0xff.
Definition correctw : Z := 0x000000000000ff00.
(** Cost.hpp:51-62 *)
Definition zero : Z :=      0x000000000000ff00.
Definition infinity : Z :=  0xffffffffffff00ff.
Definition unsafe : Z :=    0x010000000000ff00.
Definition implicit : Z :=  0x000100000100ff00.
Definition poly : Z :=      0x000001000000ff00.
Definition safe : Z :=      0x000000010000ff00.
Definition sign : Z :=      0x000000000100ff00.
Definition var : Z :=       0x000000000001ff00.
Definition spec : Z :=      0x000000000000fe00.
Definition reference : Z := 0x000000000000ff01.

(** Cost.hpp:65-81: each argument is converted to unsigned char *)
Definition mk (unsafeC polyC safeC signC implicitC varC specC referenceC : Z) : Z :=
  let b x i := x mod 256 * 256 ^ i in
  b referenceC 0 + b (specC + correctb) 1 + b varC 2 + b signC 3 + b safeC 4 + b polyC 5 + b implicitC 6 + b unsafeC 7.

(** Cost.hpp:83-90 *)
Definition get_unsafe (c : Z) := byte 7 c.
Definition get_implicit (c : Z) := byte 6 c.
Definition get_poly (c : Z) := byte 5 c.
Definition get_safe (c : Z) := byte 4 c.
Definition get_sign (c : Z) := byte 3 c.
Definition get_var (c : Z) := byte 2 c.
Definition get_spec (c : Z) := - (correctb - byte 1 c).
Definition get_reference (c : Z) := byte 0 c.

(** Cost.hpp:95-99 *)
Definition compare (l r : Z) : Z :=
  if l =? infinity then 1 else
  if r =? infinity then -1 else
  if r <? l then 1 else if l =? r then 0 else -1.
(** Cost.hpp:157-163 *)
Definition eqb (l r : Z) : bool := l =? r.
Definition neqb (l r : Z) : bool := negb (l =? r).
(** Cost.hpp:165-173 *)
Definition ltb (l r : Z) : bool :=
  if l =? infinity then false else if r =? infinity then true else l <? r.
Definition leb (l r : Z) : bool := negb (ltb r l).
(** Cost.hpp:175-178 *)
Definition add (l r : Z) : Z :=
  if (l =? infinity) || (r =? infinity) then infinity else (l + r - correctw) mod M64.
(** Cost.hpp:104-112 *)
Definition add_assign (l r : Z) : Z :=
  if l =? infinity then l else if r =? infinity then infinity else (l + (r - correctw) mod M64) mod M64.

(** Cost.hpp:114-152: [inc i] adds [n] to byte i, [None] when the assert fails *)
Definition inc (i : Z) (c n : Z) : option Z :=
  if c =? infinity then Some c else
  if byte i c + n <=? 255 then Some (c - byte i c * 256 ^ i + (byte i c + n) mod 256 * 256 ^ i) else None.
Definition incUnsafe := inc 7.
Definition incImplicit := inc 6.
Definition incPoly := inc 5.
Definition incSafe := inc 4.
Definition incSign := inc 3.
Definition incVar := inc 2.
Definition incReference := inc 0.
Definition decSpec (c n : Z) : option Z :=
  if c =? infinity then Some c else
  if 0 <=? byte 1 c - n then Some (c - byte 1 c * 256 + (byte 1 c - n) mod 256 * 256) else None.
