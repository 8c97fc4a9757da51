(** Model of libcfa/src/bitmanip.hfa, bits/align.hfa, the integer floor/ceiling/log2 of math.hfa and the integer
    powers of math.cfa.  The overloads differ only in the operand width: [w] is that width (8, 16, 32 or 64).
    Unsigned words are integers in [0, 2^w); signed words are in [-2^(w-1), 2^(w-1)); signed overflow and the
    documented undefined cases of the GCC builtins are the outcome [None]. *)
From Coq Require Import ZArith List Bool.
Import ListNotations.
Open Scope Z_scope.

Definition wrap (w z : Z) : Z := z mod 2 ^ w.
Definition in_s (w z : Z) : bool := (- 2 ^ (w - 1) <=? z) && (z <? 2 ^ (w - 1)).
Definition sgn (w z : Z) : option Z := if in_s w z then Some z else None.
Definition obind {A B} (x : option A) (f : A -> option B) : option B :=
  match x with Some a => f a | None => None end.

(** GCC builtins on a word of width W: clz and ctz are undefined at 0; ffs is 0 there. *)
Definition clz (W n : Z) : option Z := if n =? 0 then None else Some (W - 1 - Z.log2 n).
Fixpoint ctz_pos (p : positive) : Z := match p with xO q => 1 + ctz_pos q | _ => 0 end.
Definition ctz (n : Z) : option Z := match n with Zpos p => Some (ctz_pos p) | _ => None end.
Fixpoint pop_pos (p : positive) : Z :=
  match p with xO q => pop_pos q | xI q => 1 + pop_pos q | xH => 1 end.
Definition popcount (n : Z) : Z := match n with Zpos p => pop_pos p | _ => 0 end.
Definition ffs (n : Z) : Z := match n with Zpos p => 1 + ctz_pos p | _ => 0 end.
(** [(typeof(n))~n] *)
Definition cnot (w n : Z) : Z := wrap w (Z.lnot n).
(** width at which the builtin runs: unsigned int for the narrow types *)
Definition bw (w : Z) : Z := Z.max w 32.

(** bitmanip.hfa:29-33 *)
Definition leading0s (w n : Z) : option Z :=
  if negb (n =? 0) then option_map (fun c => c - (bw w - w)) (clz (bw w) n) else Some w.
(** bitmanip.hfa:36-40 *)
Definition trailing0s (w n : Z) : option Z := if negb (n =? 0) then ctz n else Some w.
(** bitmanip.hfa:43-47 *)
Definition all1s (w n : Z) : Z := popcount n.
(** bitmanip.hfa:50-54 *)
Definition all0s (w n : Z) : Z := popcount (cnot w n).
(** bitmanip.hfa:57-61 *)
Definition low0 (w n : Z) : Z := ffs (cnot w n).
(** bitmanip.hfa:64-66 *)
Definition low1 (w n : Z) : Z := ffs n.
(** bitmanip.hfa:69-73 *)
Definition high0 (w n : Z) : option Z :=
  if n =? wrap w (-1) then Some 0 else option_map (fun c => bw w - c) (clz (bw w) (cnot w n)).
(** bitmanip.hfa:76-80 *)
Definition high1 (w n : Z) : option Z :=
  if n =? 0 then Some 0 else option_map (fun c => bw w - c) (clz (bw w) n).
(** bitmanip.hfa:84-88 *)
Definition is_pow2 (w n : Z) : bool := if n =? 0 then false else Z.land n (wrap w (n - 1)) =? 0.

(** bitmanip.hfa:92-100, unsigned overloads, after the [verify] *)
Definition floor2u (w n align : Z) : Z := Z.land n (wrap w (- align)).
(** bitmanip.hfa:107-115, unsigned overloads *)
Definition ceiling2u (w n align : Z) : Z := wrap w (- floor2u w (wrap w (- n)) align).
(** bitmanip.hfa:91-99 and :106-114, signed overloads of width 32 and 64 (narrower ones are promoted to int and
    not modelled).  [- align] and [- n] overflow at the least value. *)
Definition floor2s (w n align : Z) : option Z :=
  obind (sgn w (- align)) (fun m => sgn w (Z.land n m)).
Definition ceiling2s (w n align : Z) : option Z :=
  obind (sgn w (- n)) (fun m => obind (floor2s w m align) (fun r => sgn w (- r))).

(** bits/align.hfa:40-43: no test for 0 *)
Definition libPow2 (value : Z) : bool := Z.land value (wrap 64 (value - 1)) =? 0.
(** bits/align.hfa:47-51 and :56-60: the assert is an abort ([None]) *)
Definition libFloor (value align : Z) : option Z :=
  if libPow2 align then Some (Z.land value (wrap 64 (- align))) else None.
Definition libCeiling (value align : Z) : option Z :=
  if libPow2 align then option_map (fun r => wrap 64 (- r)) (libFloor (wrap 64 (- value)) align) else None.

(** math.hfa:286-295 *)
Definition flooru (n align : Z) : option Z := if align =? 0 then None else Some (n / align * align).
Definition floors (w n align : Z) : option Z :=
  if align =? 0 then None else obind (sgn w (Z.quot n align)) (fun q => sgn w (q * align)).
(** math.hfa:300-309 *)
Definition ceiling_divu (w n align : Z) : option Z :=
  if align =? 0 then None else Some (wrap w (n + wrap w (align - 1)) / align).
Definition ceiling_divs (w n align : Z) : option Z :=
  obind (sgn w (align - 1)) (fun m => obind (sgn w (n + m)) (fun s =>
  if align =? 0 then None else sgn w (Z.quot s align))).
(** math.hfa:311-350 *)
Definition ceilingu (w n align : Z) : option Z :=
  obind (flooru n align) (fun t => Some (if n =? t then t else wrap w (t + align))).
Definition ceilings (w n align : Z) : option Z :=
  obind (floors w n align) (fun t => if (n <? 0) || (n =? t) then Some t else sgn w (t + align)).
(** math.hfa:105-107: the result type is signed *)
Definition ilog2 (w n : Z) : option Z := if n =? 0 then Some (-1) else option_map (fun c => w - 1 - c) (clz w n).

(** math.cfa:112-144: the power macro.  The loop of lines 122-125 carries fuel. *)
Section Power.
  (** [mul] is the multiplication of the type, [None] on signed overflow *)
  Context {T : Type} (mul : T -> T -> option T).
  Fixpoint exp_loop (fuel : nat) (y : Z) (op w : T) : option (option T) :=
    match fuel with
    | O => None
    | S f =>
        if 1 <? y then
          match (if Z.land y 1 =? 1 then mul op w else Some op) with
          | None => Some None
          | Some op' =>
              match mul w w with
              | None => Some None
              | Some w' => exp_loop f (Z.shiftr y 1) op' w'
              end
          end
        else Some (mul w op)
    end.
  (** math.cfa:137-144, polymorphic: outer option is fuel, inner option is overflow of the operation *)
  Definition exp_poly (one : T) (x : T) (y : Z) : option (option T) :=
    if y =? 0 then Some (Some one) else exp_loop (S (Z.to_nat (Z.log2 y))) y one x.
End Power.

(** math.cfa:126-128, signed of width w (exponent of the same width).  [x << s] is undefined for s >= w, and for
    signed x when the result is not representable. *)
Definition exps (w x y : Z) : option (option Z) :=
  if y =? 0 then Some (Some 1) else
  if x =? 1 then Some (Some 1) else
  if x =? 2 then Some (if w <=? y - 1 then None else sgn w (Z.shiftl x (y - 1))) else
  if w <=? y then Some (Some 0) else
  exp_loop (fun a b => sgn w (a * b)) (S (Z.to_nat (Z.log2 y))) y 1 x.
(** math.cfa:129-131, unsigned *)
Definition expu (w x y : Z) : option (option Z) :=
  if y =? 0 then Some (Some 1) else
  if x =? 1 then Some (Some 1) else
  if x =? 2 then Some (if w <=? y - 1 then None else Some (wrap w (Z.shiftl x (y - 1)))) else
  if w <=? y then Some (Some 0) else
  exp_loop (fun a b => Some (wrap w (a * b))) (S (Z.to_nat (Z.log2 y))) y 1 x.

(** math.cfa:29-47, the table of log2_u32_32 *)
Definition log_table : list Z := [
  0x0000000000; 0x0005b9e5a1; 0x000b5d69ba; 0x0010eb389f; 0x001663f6fa; 0x001bc84240; 0x002118b119; 0x002655d3c4;
  0x002b803473; 0x00309857a0; 0x00359ebc5b; 0x003a93dc98; 0x003f782d72; 0x00444c1f6b; 0x0049101eac; 0x004dc4933a;
  0x005269e12f; 0x00570068e7; 0x005b888736; 0x006002958c; 0x00646eea24; 0x0068cdd829; 0x006d1fafdc; 0x007164beb4;
  0x00759d4f80; 0x0079c9aa87; 0x007dea15a3; 0x0081fed45c; 0x0086082806; 0x008a064fd5; 0x008df988f4; 0x0091e20ea1;
  0x0095c01a39; 0x009993e355; 0x009d5d9fd5; 0x00a11d83f4; 0x00a4d3c25e; 0x00a8808c38; 0x00ac241134; 0x00afbe7fa0;
  0x00b3500472; 0x00b6d8cb53; 0x00ba58feb2; 0x00bdd0c7c9; 0x00c1404ead; 0x00c4a7ba58; 0x00c80730b0; 0x00cb5ed695;
  0x00ceaecfea; 0x00d1f73f9c; 0x00d53847ac; 0x00d8720935; 0x00dba4a47a; 0x00ded038e6; 0x00e1f4e517; 0x00e512c6e5;
  0x00e829fb69; 0x00eb3a9f01; 0x00ee44cd59; 0x00f148a170; 0x00f446359b; 0x00f73da38d; 0x00fa2f045e; 0x00fd1a708b;
  0x0100000000; 0x0102dfca16 ].
Definition tab (i : Z) : option Z := if i <? 0 then None else nth_error log_table (Z.to_nat i).
(** math.cfa:22-110.  Shifts right of negative values are arithmetic (GCC); the left shift is in 64 bits. *)
Definition log2_u32_32 (val : Z) : option Z :=
  obind (clz 64 val) (fun lz =>
  let i := 64 - 1 - lz in
  if 64 <=? lz + 1 then None else
  let frac := Z.shiftr (wrap 64 (Z.shiftl val (lz + 1))) 32 in
  let idx0 := Z.shiftr frac 26 in
  obind (sgn 64 (frac - Z.shiftl idx0 26)) (fun udx =>
  obind (tab (idx0 + 0)) (fun y0 => obind (tab (idx0 + 1)) (fun y1 => obind (tab (idx0 + 2)) (fun y2 =>
  let f1 := y1 - y0 in
  let f2 := y2 - y0 in
  let a := f2 - f1 * 2 in
  let b := f1 * 2 - a in
  obind (sgn 64 (a * udx)) (fun au =>
  let sum := Z.shiftr au 26 + b in
  obind (sgn 64 (sum * udx)) (fun su =>
  Some (wrap 64 (Z.shiftl i 32 + (y0 + Z.shiftr su 27)))))))))).
