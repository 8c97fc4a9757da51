(* What printing an integer should give. *)

From Coq Require Import List ZArith Bool.
From Verif.Int128Io Require Import Model.
Import ListNotations.
Local Open Scope Z_scope.

Definition digit (b : Z) (c : ch) : Prop := exists d, c = Dig d /\ 0 <= d < b.
Fixpoint value (b a : Z) (l : list ch) : Z :=
  match l with
  | [] => a
  | Dig d :: r => value b (a * b + d) r
  | _ :: r => value b a r
  end.

(* ds is v written in base b: digits, no leading zero, nothing for 0. *)
Definition numeral (b v : Z) (ds : list ch) : Prop :=
  Forall (digit b) ds /\ value b 0 ds = v /\ match ds with c :: _ => c <> Dig 0 | [] => True end.

(* The decimal text of v. *)
Definition decimal (v : Z) (t : list ch) : Prop :=
  exists ds, numeral 10 (Z.abs v) ds /\
    t = (if v <? 0 then [Minus] else []) ++ match ds with [] => [Dig 0] | _ => ds end.

Definition base_of (b : base) : Z := match b with Bin => 2 | Oct => 8 | Dec => 10 | Uns => 10 | Hex => 16 end.

(* Repeated n times; nothing if n is negative. *)
Definition many (n : Z) (c : ch) : list ch := repeat c (Z.to_nat n).
Definition size (l : list ch) : Z := Z.of_nat (length l).

(* The digits ds of v, as f wants them: at least as many digits as the precision
   says, and one; before them the prefix, 0b, 0x or, if they do not begin with
   0, 0; before that the sign; all that in a field, on its right with blanks or,
   without a precision, zeros, or on its left. *)
Definition laid_out (f : fmtf) (v : Z) (ds : list ch) : list ch :=
  let least := if pcf f then Z.max 1 (pc f) else 1 in
  let d := many (least - size ds) (Dig 0) ++ ds in
  let p := if nobsdp f then []
           else match bs f with
                | Bin => [Dig 0; Lb]
                | Hex => [Dig 0; Lx]
                | Oct => match d with Dig 0 :: _ => [] | _ => [Dig 0] end
                | _ => []
                end in
  let s := match bs f with Dec => if v <? 0 then [Minus] else if sign f then [Plus] else [] | _ => [] end in
  let n := wd f - size (s ++ p ++ d) in
  if left f then s ++ p ++ d ++ many n Sp
  else if pad0 f && negb (pcf f) then s ++ p ++ many n (Dig 0) ++ d
  else many n Sp ++ s ++ p ++ d.

Definition shown (f : fmtf) (v : Z) (t : list ch) : Prop :=
  exists ds, numeral (base_of (bs f)) (Z.abs v) ds /\ t = laid_out f v ds.

Definition in_range (b : base) (v : Z) : Prop :=
  match b with Dec => - 2 ^ 127 < v < 2 ^ 127 | _ => 0 <= v < 2 ^ 128 end.

(* The leading part of the number, what remains after dividing by 10^19. *)
Definition head10 (a : Z) : Z :=
  if a <=? 10 ^ 19 then a else if a / 10 ^ 19 <=? 10 ^ 19 then a / 10 ^ 19 else a / 10 ^ 19 / 10 ^ 19.

(* All parts of the number are below 2^63. *)
Definition small_parts (a : Z) : Prop :=
  head10 a < 2 ^ 63 /\ (10 ^ 19 < a -> a mod 10 ^ 19 < 2 ^ 63) /\ (10 ^ 38 < a -> a / 10 ^ 19 mod 10 ^ 19 < 2 ^ 63).

(* Where the code does what it should. *)
Definition good (lg : Z -> Z) (f : fmtf) (v : Z) : Prop :=
  0 <= wd f /\ 0 <= pc f /\ neg f = false /\
  (pcf f = true -> pad0 f = false) /\
  match bs f with
  | Bin => v <> 2 ^ 64 /\ (pcf f = true -> v < 2 ^ pc f)
  | Hex => v <> 2 ^ 64 /\ (v = 0 -> nobsdp f = true \/ left f = true \/ pad0 f = true \/ wd f <= 3)
  | Oct => True
  | Uns => left f = true -> 10 ^ 19 < v -> 10 ^ (lg (head10 v) - 1) <= head10 v < 10 ^ lg (head10 v)
  | Dec => small_parts (Z.abs v) /\
           (left f = true -> 10 ^ 19 < Z.abs v ->
            10 ^ (lg (head10 (Z.abs v)) - 1) <= head10 (Z.abs v) < 10 ^ lg (head10 (Z.abs v)))
  end.
