(** Numerals of C, lines of text *)
From Coq Require Import Ascii String List Bool Arith ZArith.
From Verif Require Import Args.Model.
Import ListNotations.
Local Open Scope Z_scope.
Local Open Scope char_scope.
(** the digits *)
Definition dec_digits : text := ["0"; "1"; "2"; "3"; "4"; "5"; "6"; "7"; "8"; "9"].
Definition hex_low : text := dec_digits ++ ["a"; "b"; "c"; "d"; "e"; "f"].
Definition hex_up : text := dec_digits ++ ["A"; "B"; "C"; "D"; "E"; "F"].
(** c is the digit with the value d in the base *)
Definition is_dig (base : nat) (c : ascii) (d : nat) : Prop := (d < base)%nat /\ (nth_error hex_low d = Some c \/ nth_error hex_up d = Some c).
Inductive reads (base : nat) : text -> Z -> Prop :=
| Rnil : reads base [] 0
| Rsnoc t z c d : reads base t z -> is_dig base c d -> reads base (t ++ [c]) (z * Z.of_nat base + Z.of_nat d).
Inductive numeral : text -> Z -> Prop :=
| Ndec t z : t <> [] -> hd "0" t <> "0" -> reads 10 t z -> numeral t z
| Noct t z : reads 8 t z -> numeral ("0" :: t) z
| Nhex x t z : x = "x" \/ x = "X" -> t <> [] -> reads 16 t z -> numeral ("0" :: x :: t) z.
(** space, tabulators, line feed, form feed, carriage return *)
Definition blanks : text := [" "; "009"; "010"; "011"; "012"; "013"].
Definition white (t : text) : Prop := Forall (fun c => In c blanks) t.
(** white space, a sign, a numeral *)
Inductive integer : text -> Z -> Prop :=
| Iplain ws t z : white ws -> numeral t z -> integer (ws ++ t) z
| Iplus ws t z : white ws -> numeral t z -> integer (ws ++ "+" :: t) z
| Iminus ws t z : white ws -> numeral t z -> integer (ws ++ "-" :: t) (- z).
(** lines of a text; a last empty line does not count *)
Fixpoint lines (t : text) : list text :=
  match t with
  | [] => []
  | c :: r => if Ascii.eqb c nlc then [] :: lines r else match lines r with [] => [[c]] | l :: ls => (c :: l) :: ls end
  end.
(** pieces of a line *)
Inductive wrapped (w : nat) : text -> list text -> Prop :=
| Wlast l : (length l <= w)%nat -> wrapped w l [l]
| Wmore l r ps : length l = w -> r <> [] -> wrapped w r ps -> wrapped w (l ++ r) (l :: ps).
