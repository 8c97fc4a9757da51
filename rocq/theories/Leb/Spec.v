(** The encodings of the DWARF standard *)
From Coq Require Import ZArith List Bool.
Import ListNotations.
Open Scope Z_scope.
(** digits in base 128, the least first; all but the last have 128 added *)
Inductive digits : list Z -> Prop :=
| Dlast b : 0 <= b < 128 -> digits [b]
| Dmore b l : 128 <= b < 256 -> digits l -> digits (b :: l).
Fixpoint unsigned_value (l : list Z) : Z := match l with [] => 0 | [b] => b | b :: l => (b - 128) + 128 * unsigned_value l end.
Fixpoint signed_value (l : list Z) : Z := match l with [] => 0 | [b] => if b <? 64 then b else b - 128 | b :: l => (b - 128) + 128 * signed_value l end.
(** the encoders of the standard, with a bound on the number of bytes *)
Fixpoint encode_u (n : nat) (v : Z) : list Z := match n with O => [] | S n => if v <? 128 then [v] else (v mod 128 + 128) :: encode_u n (v / 128) end.
Fixpoint encode_s (n : nat) (v : Z) : list Z :=
  match n with
  | O => []
  | S n => let b := v mod 128 in let v := v / 128 in
           if ((v =? 0) && (b <? 64)) || ((v =? -1) && (64 <=? b)) then [b] else (b + 128) :: encode_s n v
  end.
(** n bytes, the least first *)
Fixpoint bytes (n : nat) (v : Z) : list Z := match n with O => [] | S n => v mod 256 :: bytes n (v / 256) end.
