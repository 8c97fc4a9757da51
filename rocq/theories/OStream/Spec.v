(** What a cascade shows: the texts of its values, a separator between two values when both allow it, and the newline at its end.
    The classes of characters are given by their Latin-1 codes. *)
From Coq Require Import Ascii String List Bool Arith.
From Verif Require Import OStream.Model.
Import ListNotations.
Definition among (l : list nat) (c : ascii) : bool := existsb (Nat.eqb (nat_of_ascii c)) l.
(** ( [ { = $ pound yen ! ? (inverted) and the left guillemet *)
Definition opening : ascii -> bool := among [40; 91; 123; 61; 36; 163; 165; 161; 191; 171].
(** , . ; ! ? % cent, the right guillemet, ) ] } *)
Definition closing : ascii -> bool := among [44; 46; 59; 33; 63; 37; 162; 187; 41; 93; 125].
(** both quotes, the back quote, the colon and white space *)
Definition around : ascii -> bool := among [39; 96; 34; 58; 32; 12; 10; 13; 9; 11].

Definition text_of (x : item) : text := match x with Num t => t | Chr c => [c] | Str t => t | Null => list_ascii_of_string "0p" end.
(** may a separator stand before, after the value *)
Definition before (x : item) : bool := match x with Num _ => true | Chr _ | Null => false | Str t => match t with [] => false | c :: _ => negb (closing c || around c) end end.
Definition after (x : item) : bool := match x with Num _ | Null => true | Chr _ => false | Str t => match t with [] => false | c :: _ => negb (opening (last t c) || around (last t c)) end end.
(** the values of a statement; true: the separator of tuples stands before the value *)
Definition flat (e : elem) : list (bool * item) := match e with I x => [(false, x)] | T a b r => (false, a) :: map (pair true) (b :: r) | M _ => [] end.
Fixpoint line (on : bool) (sp tp : text) (prev : bool) (l : list (bool * item)) : text :=
  match l with
  | [] => []
  | (t, x) :: r => (if prev && before x then if t then tp else sp else []) ++ text_of x ++ line on sp tp (on && after x) r
  end.
Definition value (e : elem) : bool := match e with M _ => false | _ => true end.
(** manipulators that only turn separators on or off *)
Definition sep_manip (m : manip) : bool := match m with Msep | Mnosep | MsepOn | MsepOff => true | _ => false end.
Definition plain (e : elem) : bool := match e with M m => sep_manip m | _ => true end.
Definition shows (e : elem) : bool := existsb (fun p => negb (match text_of (snd p) with [] => true | _ => false end)) (flat e).
(** a value has a text that does not end a line, unless it is a character or a string *)
Definition good_item (x : item) : bool := match x with Num t => match t with [] => false | c :: _ => negb (Ascii.eqb (last t c) nlc) end | _ => true end.
Definition good (a : act) : bool := match a with Part e | Last e => forallb (fun p => good_item (snd p)) (flat e) | _ => true end.
Definition ends_line (t : text) : Prop := exists u, t = u ++ [nlc].
Definition statement (l : list elem) (e : elem) : list act := map Part l ++ [Last e].
