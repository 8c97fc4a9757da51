(** Command-line options: libcfa/src/parseargs.cfa. Strings are lists of characters without the null character.
    Not modelled: getopt_long itself, the parsing of doubles, the layout of the usage text other than the help column. *)
From Coq Require Import Ascii String List Bool Arith ZArith.
Import ListNotations.
Notation text := (list ascii).
Local Open Scope Z_scope.
(** isspace, isdigit *)
Definition code (c : ascii) : Z := Z.of_nat (nat_of_ascii c).
Definition is_space (c : ascii) : bool := (code c =? 32) || ((9 <=? code c) && (code c <=? 13)).
Definition is_digit (c : ascii) : bool := (48 <=? code c) && (code c <=? 57).
(** strtoll and strtoull of the C library with base 0 (C11 7.22.1.4): white space, sign, 0x digits / 0 digits / digits; the value and the rest; without digits
    the rest is the whole string; errno is set only if the value is out of range *)
Definition dval (base : Z) (c : ascii) : option Z :=
  let v := if is_digit c then code c - 48 else if (97 <=? code c) && (code c <=? 102) then code c - 87 else if (65 <=? code c) && (code c <=? 70) then code c - 55 else 99 in
  if v <? base then Some v else None.
Fixpoint skip (l : text) : text := match l with c :: r => if is_space c then skip r else l | [] => [] end.
Fixpoint digits (base : Z) (l : text) (acc : Z) : Z * text :=
  match l with [] => (acc, []) | c :: r => match dval base c with Some d => digits base r (acc * base + d) | None => (acc, l) end end.
Definition is_x (c : ascii) : bool := Ascii.eqb c "x" || Ascii.eqb c "X".
Definition body (l : text) : option (Z * text) :=
  match l with
  | [] => None
  | c :: r =>
    if Ascii.eqb c "0" then
      match r with
      | x :: d :: _ => if is_x x && match dval 16 d with Some _ => true | None => false end then Some (digits 16 (tl r) 0) else Some (digits 8 l 0)
      | _ => Some (digits 8 l 0)
      end
    else if is_digit c then Some (digits 10 l 0) else None
  end.
Definition sign (l : text) : bool * text := match l with c :: r => if Ascii.eqb c "-" then (true, r) else if Ascii.eqb c "+" then (false, r) else (false, l) | [] => (false, l) end.
Definition strto (l : text) : Z * text :=
  let (neg, r) := sign (skip l) in
  match body r with Some (v, r) => ((if neg then - v else v), r) | None => (0, l) end.
Definition llmax : Z := 9223372036854775807.
Definition ullmax : Z := 18446744073709551615.
Definition imax : Z := 2147483647.
Definition umax : Z := 4294967295.
(** parse of int, 338-349 *)
Definition parse_int (arg : text) : option Z :=
  let (r, rest) := strto arg in
  if (llmax <? r) || (r <? - llmax - 1) then None
  else match rest with _ :: _ => None | [] => if imax <? r then None else if r <? - imax - 1 then None else Some r end.
(** strict_strtoull, 351-373, and parse of the unsigned types, 375-397 *)
Definition strict (arg : text) : option Z :=
  match skip arg with
  | [] => None
  | c :: _ => if negb (is_digit c) then None
              else let (r, rest) := strto arg in match rest with _ :: _ => None | [] => if ullmax <? r then None else Some r end
  end.
Definition parse_unsigned (max : Z) (arg : text) : option Z := match strict arg with Some r => if max <? r then None else Some r | None => None end.
(** parse_yesno and parse_truefalse, 283-321 *)
Definition eqs (a : text) (s : string) : bool := if list_eq_dec ascii_dec a (list_ascii_of_string s) then true else false.
Definition parse_yesno (a : text) : option bool :=
  if eqs a "yes" then Some true else if eqs a "Y" then Some true else if eqs a "y" then Some true else
  if eqs a "no" then Some false else if eqs a "N" then Some false else if eqs a "n" then Some false else None.
Definition parse_truefalse (a : text) : option bool := if eqs a "true" then Some true else if eqs a "false" then Some false else None.
(** the help column of printopt, 188-229, next_newline, 173-184: the pieces printed, one on a line; None: out of fuel, the loop goes on *)
Definition nlc : ascii := "010".
Definition hwidth (max width : Z) : nat := let h := max - (11 + width) in Z.to_nat (if h <=? 0 then max else h).
Fixpoint next_nl (l : text) : option nat := match l with [] => None | c :: r => if Ascii.eqb c nlc then Some O else option_map S (next_nl r) end.
Fixpoint pieces (f hw : nat) (help : text) : option (list text) :=
  match f with
  | O => None
  | S f =>
    let nextnl := next_nl help in
    let real := let m := Nat.min (length help) hw in match nextnl with Some n => Nat.min m n | None => m end in
    let piece := firstn real help in
    let help := skipn real help in
    let help := if match nextnl with Some n => Nat.eqb n real | None => false end then skipn 1 help else help in
    match help with [] => Some [piece] | _ => option_map (cons piece) (pieces f hw help) end
  end.
(** check_args, 57-71, the values of the options, 95-136, and the choice of an option by the value of getopt_long, 141-166.
    An option: its short name, 0 if none, and its long name *)
Definition option_ := (Z * text)%type.
Definition eqt (a b : text) : bool := if list_eq_dec ascii_dec a b then true else false.
Fixpoint clash (o : option_) (l : list option_) : bool :=
  match l with [] => false | p :: l => (negb (fst o =? 0) && (fst o =? fst p)) || eqt (snd o) (snd p) || clash o l end.
Fixpoint check (l : list option_) : bool := match l with [] => true | o :: l => negb (clash o l) && check l end.
Definition hc : Z := 104.
Definition start_max (l : list option_) : Z := fold_left (fun m (o : option_) => if fst o =? 0 then m else Z.max (fst o) m) l hc.
Fixpoint vals (l : list option_) (m : Z) : list Z := match l with [] => [] | o :: l => if fst o =? 0 then (m + 1) :: vals l (m + 1) else fst o :: vals l m end.
Inductive choice := Help | Usage | Opt (i : nat) | Error.
Fixpoint index (v : Z) (l : list Z) : option nat := match l with [] => None | x :: l => if v =? x then Some O else option_map S (index v l) end.
Definition choose (l : list option_) (v : Z) : choice :=
  if v =? hc then Help else if v =? 63 then Usage else match index v (vals l (start_max l)) with Some i => Opt i | None => Error end.
