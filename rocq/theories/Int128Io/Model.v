(* Printing and reading of 128-bit integers: /repo/libcfa/src/iostream.cfa,
   lines 127-163 (plain), 396-586 (with manipulators), 892-912 (reading).

   Simplifications: characters are a small type, upper and lower case letters
   are the same; the locale is C, so the flag ' of printf does nothing; writing
   does not fail; widths and precisions are integers that fit int, so that the
   arithmetic of the code, partly unsigned, is that of Z.  printf and scanf do
   what C17 7.21.6.1 and 7.21.6.2 say. *)

From Coq Require Import List ZArith Bool.
Import ListNotations.
Local Open Scope Z_scope.

Inductive ch := Sp | Minus | Plus | Lb | Lx | Sepr | Dig (d : Z).

Definition two63 : Z := 9223372036854775808.
Definition two64 : Z := 18446744073709551616.
Definition two127 : Z := 170141183460469231731687303715884105728.
Definition two128 : Z := 340282366920938463463374607431768211456.
Definition p10 : Z := 10000000000000000000.

Definition rep (n : Z) (c : ch) : list ch := repeat c (Z.to_nat n).
Definition len (l : list ch) : Z := Z.of_nat (length l).

(* The digits of v in base b, without leading zeros, none for 0.  128 of them
   are enough for what is printed here. *)
Fixpoint digf (fuel : nat) (b v : Z) : list ch :=
  match fuel with
  | O => []
  | S n => if v <=? 0 then [] else digf n b (v / b) ++ [Dig (v mod b)]
  end.
Definition digs (b v : Z) : list ch := digf 128 b v.

(* At least n digits. *)
Definition atleast (n : Z) (ds : list ch) : list ch := rep (n - len ds) (Dig 0) ++ ds.

(* -- plain, decimal -- *)

(* iostream.cfa:132-140; "%.19lu" and "%lu" of printf *)
Fixpoint base10_128 (fuel : nat) (v : Z) : option (list ch) :=
  match fuel with
  | O => None
  | S n =>
      if negb (v / two64 =? 0) || (p10 <? v mod two64)
      then match base10_128 n (v / p10) with
           | None => None
           | Some t => Some (t ++ atleast 19 (digs 10 (v mod p10)))
           end
      else Some (atleast 1 (digs 10 (v mod two64)))
  end.

(* iostream.cfa:157-161 *)
Definition print_u (v : Z) : option (list ch) := base10_128 4 v.
(* iostream.cfa:142-154; None: the negation overflows *)
Definition print_s (v : Z) : option (list ch) :=
  if v <? 0
  then if v =? - two127 then None else match base10_128 4 (- v) with None => None | Some t => Some (Minus :: t) end
  else base10_128 4 v.

Fixpoint skipsp (l : list ch) : list ch := match l with Sp :: r => skipsp r | _ => l end.
Fixpoint takem (l : list ch) : nat * list ch :=
  match l with Minus :: r => let (m, l1) := takem r in (S m, l1) | _ => (O, l) end.
(* at most n digits, what follows *)
Fixpoint taked (n : nat) (l : list ch) : list Z * list ch :=
  match n, l with
  | S m, Dig d :: r => if (0 <=? d) && (d <=? 9) then let (ds, l1) := taked m r in (d :: ds, l1) else ([], l)
  | _, _ => ([], l)
  end.
Fixpoint dropd (l : list ch) : list ch :=
  match l with Dig d :: r => if (0 <=? d) && (d <=? 9) then dropd r else l | _ => l end.

Inductive rd := Smash | Got (v : Z) (rest : list ch).   (* Smash: written beyond the buffer *)

(* iostream.cfa:897-911 *)
Definition read_u (old : Z) (l : list ch) : rd :=
  let (m, l1) := takem (skipsp l) in
  if Nat.leb 40 m then Smash                            (* char s[40], with the '\0' *)
  else
    let (ds, l2) := taked 39 l1 in
    match ds with
    | [] => Got old l2
    | _ => let v := fold_left (fun a d => (a * 10 + d) mod two128) ds 0 in
           Got (if Nat.eqb m 0 then v else (- v) mod two128) (dropd l2)
    end.
(* iostream.cfa:893-895 *)
Definition read_s (old : Z) (l : list ch) : rd :=
  match read_u (old mod two128) l with
  | Smash => Smash
  | Got v r => Got (if v <? two127 then v else v - two128) r
  end.

(* -- with manipulators -- *)

Inductive base := Bin | Oct | Dec | Uns | Hex.          (* b o d u x *)

(* iostream.hfa:183-208 *)
Record fmtf := F {
  wd : Z; pc : Z; bs : base;
  pcf : bool; left : bool; nobsdp : bool; sign : bool; pad0 : bool; neg : bool
}.

(* The stream: what was written, whether a separator is due; dflt: sepDefault$ *)
Record os := St { txt : list ch; son : bool; dflt : bool }.

(* fstream.cfa:161-182, without the formatting *)
Definition emit (o : os) (t : list ch) : os := St (txt o ++ t) (dflt o) (dflt o).
(* fstream.cfa:72 *)
Definition nosep (o : os) : os := St (txt o) false (dflt o).
(* if ( sepPrt$( os ) ) fmt( os, "%s", sepGetCur$( os ) ) *)
Definition separate (o : os) : os := if son o then emit o [Sepr] else o.

(* C17 7.21.6.1: sign, prefix, digits in a field *)
Definition field (lft zero : bool) (w : Z) (s p d : list ch) : list ch :=
  let n := w - (len s + len p + len d) in
  if lft then s ++ p ++ d ++ rep n Sp
  else if zero then s ++ p ++ rep n (Dig 0) ++ d
  else rep n Sp ++ s ++ p ++ d.

Definition radix (b : base) : Z := match b with Bin => 2 | Oct => 8 | Hex => 16 | _ => 10 end.

Definition isz (l : list ch) : bool := match l with Dig d :: _ => d =? 0 | _ => false end.

(* The conversions o, u, x, d of printf with the flags # - + 0, a width w, and
   a precision if prec; v is signed for d. *)
Definition cprintf (b : base) (alt lft plus zero prec : bool) (w p v : Z) : list ch :=
  let a := Z.abs v in
  let ds := atleast (if prec then p else 1) (digs (radix b) a) in
  let ds := match b with Oct => if alt && negb (isz ds) then Dig 0 :: ds else ds | _ => ds end in
  let pre := match b with Hex => if alt && negb (a =? 0) then [Dig 0; Lx] else [] | _ => [] end in
  let s := match b with Dec => if v <? 0 then [Minus] else if plus then [Plus] else [] | _ => [] end in
  field lft (zero && negb prec) w s pre ds.

(* bitmanip.hfa:79 *)
Definition high1 (v : Z) : Z := if v <=? 0 then 0 else Z.log2 v + 1.

(* iostream.cfa:396-397 *)
Definition longbin (x : Z) : list ch := [Dig (x / 8 mod 2); Dig (x / 4 mod 2); Dig (x / 2 mod 2); Dig (x mod 2)].
Definition shortbin (x : Z) : list ch :=
  if x <? 2 then [Dig x]
  else if x <? 4 then [Dig 1; Dig (x mod 2)]
  else if x <? 8 then [Dig 1; Dig (x / 2 mod 2); Dig (x mod 2)]
  else longbin x.

(* iostream.cfa:443-448 *)
Fixpoint nibbles (n : nat) (v : Z) : list ch :=
  match n with O => [] | S m => longbin (v / 16 ^ Z.of_nat m mod 16) ++ nibbles m v end.

(* iostream.cfa:405-452 *)
Definition bespoke (f : fmtf) (v : Z) : list ch :=
  let bits := if high1 v =? 0 then 1 else high1 v in
  let pre := if nobsdp f then [] else [Dig 0; Lb] in
  let pl := if nobsdp f then 0 else 2 in
  let shift := (bits - 1) / 4 in
  let body := shortbin (v / 16 ^ shift mod 16) ++ nibbles (Z.to_nat shift) v in
  if negb (left f)
  then if pcf f
       then rep (wd f - pc f - pl) Sp ++ pre ++ rep (pc f - bits) (Dig 0) ++ body
       else if pad0 f
       then pre ++ rep (wd f - bits - pl) (Dig 0) ++ body
       else rep (wd f - bits - pl) Sp ++ pre ++ body
  else pre ++ (if pcf f then rep (pc f - bits) (Dig 0) else []) ++ body ++
       rep ((if pcf f then wd f - pc f else wd f - bits) - pl) Sp.

(* iostream.cfa:402-482 for T = uint64_t, v in 0 .. 2^64 - 1.  The conversion d
   gets the bits of v as a long int. *)
Definition manip (f : fmtf) (v : Z) : list ch :=
  match bs f with
  | Bin => bespoke f v
  | b =>
      let z := match b with Hex => negb (nobsdp f) && (v =? 0) | _ => false end in
      let w := if z then (if wd f - 2 <? 0 then 1 else wd f - 2) else wd f in
      (if z then [Dig 0; Lx] else []) ++
      cprintf b (negb (nobsdp f)) (left f) (sign f) (pad0 f && negb (pcf f)) (pcf f) w (pc f)
              (match b with Dec => if v <? two63 then v else v - two64 | _ => v end)
  end.

Definition print64 (o : os) (f : fmtf) (v : Z) : os := emit (separate o) (manip f v).

(* iostream.cfa:501-563.  The chunk size, maxdig, bits.  lg: ceil( log10( v ) )
   in floating point. *)
Fixpoint base_128 (lg : Z -> Z) (fuel : nat) (power maxdig bits : Z) (o : os) (f : fmtf) (v cnt : Z) {struct fuel} : option (os * fmtf) :=
  match fuel with
  | O => None
  | S n =>
      if power <? v
      then match base_128 lg n power maxdig bits o f (v / power) (cnt + 1) with
           | None => None
           | Some (o, f) =>
               let x := (v mod power) mod two64 in
               let adj := (cnt =? 1) && left f in
               let w := wd f in
               let f1 := if adj then F maxdig (pc f) (bs f) (pcf f) (left f) (nobsdp f) (sign f) (pad0 f) (neg f) else f in
               let o := print64 o f1 x in
               let w1 := w - maxdig in
               Some (if cnt =? 1 then nosep o else o,
                     if adj then F (if w1 <? 0 then 1 else w1) (pc f) (bs f) (pcf f) (left f) (nobsdp f) (sign f) (pad0 f) (neg f) else f)
           end
      else
        let x := v mod two64 in
        let big := pcf f && (maxdig * cnt <? pc f) in
        let pc1 := if big then pc f - maxdig * cnt else 0 in
        let pcf1 := big in
        let '(w0, w) :=                               (* f.wd, wd *)
          if negb (left f)
          then (if wd f - maxdig * cnt <? 0 then 1 else wd f - maxdig * cnt, maxdig)
          else if negb (cnt =? 0)
          then
            let '(dig, b) :=
              match bs f with
              | Dec | Uns => (lg x, if match bs f with Dec => neg f || sign f | _ => false end then 1 else 0)
              | b => ((high1 x + (bits - 1)) / bits,
                      if nobsdp f then 0
                      else match b with Oct => if pc1 <=? (high1 x + (bits - 1)) / bits then 1 else 0 | _ => 2 end)
              end in
            let w := wd f - (if dig <? pc1 then pc1 else dig) - b in
            (1, if w <? 0 then 1 else w)
          else (wd f, 1) in
        let y := if neg f then (- x) mod two64 else x in
        let o := print64 o (F w0 pc1 (bs f) pcf1 (left f) (nobsdp f) (sign f) (pad0 f) (neg f)) y in
        Some (if cnt =? 0 then o else nosep o,
              F w (if left f then maxdig else pc1) (bs f) (left f) (left f) true false
                (if left f then pad0 f else true) (neg f))
  end.

Definition fst_ {A B} (r : option (A * B)) : option A := match r with Some (a, _) => Some a | None => None end.

(* iostream.cfa:565-583, for a value v of type int128 (sg) or unsigned int128;
   None: overflow *)
Definition print128 (lg : Z -> Z) (o : os) (f : fmtf) (v : Z) : option os :=
  match bs f with
  | Bin => fst_ (base_128 lg 4 two64 64 1 o f (v mod two128) 0)
  | Oct => fst_ (base_128 lg 4 two63 21 3 o f (v mod two128) 0)
  | Uns => fst_ (base_128 lg 4 p10 19 0 o f (v mod two128) 0)
  | Dec =>
      if v =? - two127 then None
      else let f := if v <? 0 then F (wd f) (pc f) (bs f) (pcf f) (left f) (nobsdp f) (sign f) (pad0 f) true else f in
           fst_ (base_128 lg 4 p10 19 0 o f (Z.abs v) 0)
  | Hex => fst_ (base_128 lg 4 two64 16 4 o f (v mod two128) 0)
  end.
