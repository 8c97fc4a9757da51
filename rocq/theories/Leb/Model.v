(** Numbers in exception tables: libcfa/src/lsda.h:36-212. A byte is a number from 0 to 255; the bytes at p and after are a list; the machine has 64 bits and is little endian.
    Outcomes: the value and the bytes left; a read past the end of the list; undefined behaviour (a shift by 64 or more); abort. *)
From Coq Require Import ZArith List Bool.
Import ListNotations.
Open Scope Z_scope.
Inductive res (A : Type) := Ok (a : A) | Past | Undef | Abort.
Arguments Ok {A}. Arguments Past {A}. Arguments Undef {A}. Arguments Abort {A}.
Definition bind {A B} (r : res A) (f : A -> res B) : res B := match r with Ok a => f a | Past => Past | Undef => Undef | Abort => Abort end.
Definition W : Z := 2 ^ 64.
Definition signed (x : Z) : Z := if x <? 2 ^ 63 then x else x - W.
(** the loop of read_uleb128 and read_sleb128, 88-94 and 108-114: result, last byte, shift, rest *)
Fixpoint loop (p : list Z) (shift result : Z) : res (Z * Z * Z * list Z) :=
  match p with
  | [] => Past
  | byte :: p =>
    if 64 <=? shift then Undef else
    let result := Z.lor result (Z.shiftl (Z.land byte 127) shift mod W) in
    let shift := shift + 7 in
    if Z.land byte 128 =? 0 then Ok (result, byte, shift, p) else loop p shift result
  end.
(** read_uleb128, 81-98 *)
Definition read_uleb128 (p : list Z) : res (Z * list Z) := bind (loop p 0 0) (fun '(result, _, _, p) => Ok (result, p)).
(** read_sleb128, 101-121 *)
Definition read_sleb128 (p : list Z) : res (Z * list Z) :=
  bind (loop p 0 0) (fun '(result, byte, shift, p) =>
    let result := if (shift <? 64) && negb (Z.land byte 64 =? 0) then Z.lor result ((- (Z.shiftl 1 shift)) mod W) else result in
    Ok (signed result, p)).
(** size_of_encoded_value, 41-52 *)
Definition size_of (encoding : Z) : res Z :=
  if encoding =? 255 then Ok 0 else
  let e := Z.land encoding 7 in
  if e =? 0 then Ok 8 else if e =? 2 then Ok 2 else if e =? 3 then Ok 4 else if e =? 4 then Ok 8 else Abort.
(** the members of union unaligned, 129-138 *)
Fixpoint le (n : nat) (p : list Z) : res (Z * list Z) :=
  match n with
  | O => Ok (0, p)
  | S n => match p with [] => Past | b :: p => bind (le n p) (fun '(v, p) => Ok (b + 256 * v, p)) end
  end.
Definition sle (n : nat) (p : list Z) : res (Z * list Z) :=
  bind (le n p) (fun '(v, p) => let m := 2 ^ (8 * Z.of_nat n) in Ok ((if v <? m / 2 then v else v - m) mod W, p)).
(** read_encoded_value_with_base, 127-212; u: the address p; load: the word at an address *)
Definition read_encoded (encoding base u : Z) (load : Z -> Z) (p : list Z) : res (Z * list Z) :=
  if encoding =? 80 then le 8 (skipn (Z.to_nat ((- u) mod 8)) p) else
  let e := Z.land encoding 15 in
  let raw :=
    if e =? 0 then le 8 p else
    if e =? 1 then read_uleb128 p else
    if e =? 9 then bind (read_sleb128 p) (fun '(v, p) => Ok (v mod W, p)) else
    if e =? 2 then le 2 p else if e =? 3 then le 4 p else if e =? 4 then le 8 p else
    if e =? 10 then sle 2 p else if e =? 11 then sle 4 p else if e =? 12 then sle 8 p else Abort in
  bind raw (fun '(result, p) =>
    if result =? 0 then Ok (result, p) else
    let result := (result + (if Z.land encoding 112 =? 16 then u else base)) mod W in
    Ok (if negb (Z.land encoding 128 =? 0) then load result else result, p)).
