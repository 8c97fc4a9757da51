(** Separators and newlines of output streams: libcfa/src/iostream.cfa:43-379, libcfa/src/fstream.cfa:34-107,161-182 (strstream.cfa repeats these functions).
    Not modelled: errors of the file, flushing, locking, the ends of the streams exit and abort, the formatting of values (their text is given), formatted strings. Characters are bytes. *)
From Coq Require Import Ascii String List Bool Arith.
Import ListNotations.
Notation text := (list ascii).
Definition nlc : ascii := "010".
(** fstream.cfa:34-44, fields of ofstream; tup: sepCur$ points to tupleSeparator$ *)
Record os := OS { sdef : bool; son : bool; anl : bool; prt : bool; saw : bool; tup : bool; seps : text; tups : text; out : text }.
Definition init : os := OS true false true false false false (list_ascii_of_string " ") (list_ascii_of_string ", ") [].
Definition set_on (s : os) (b : bool) : os := OS (sdef s) b (anl s) (prt s) (saw s) (tup s) (seps s) (tups s) (out s).
Definition set_prt (s : os) (b : bool) : os := OS (sdef s) (son s) (anl s) b (saw s) (tup s) (seps s) (tups s) (out s).
Definition set_nl (s : os) (b : bool) : os := OS (sdef s) (son s) (anl s) (prt s) b (tup s) (seps s) (tups s) (out s).
Definition set_tup (s : os) (b : bool) : os := OS (sdef s) (son s) (anl s) (prt s) (saw s) b (seps s) (tups s) (out s).
Definition set_def (s : os) (b : bool) : os := OS b (son s) (anl s) (prt s) (saw s) (tup s) (seps s) (tups s) (out s).
Definition set_anl (s : os) (b : bool) : os := OS (sdef s) (son s) b (prt s) (saw s) (tup s) (seps s) (tups s) (out s).
Definition reset (s : os) : os := set_on s (sdef s).
(** fmt, fstream.cfa:161-182 *)
Definition fmt (t : text) (s : os) : os := reset (set_prt (OS (sdef s) (son s) (anl s) (prt s) (saw s) (tup s) (seps s) (tups s) (out s ++ t)) true).
(** sepPrt$ (51) and the separator: if ( sepPrt$( os ) && ok ) fmt( os, "%s", sepGetCur$( os ) ) *)
Definition cur_sep (s : os) : text := if tup s then tups s else seps s.
Definition lead (ok : bool) (s : os) : os := let s' := set_nl s false in if son s && ok then fmt (cur_sep s') s' else s'.
(** sep, nosep, sepOn, sepOff: 71-86 *)
Definition sep (s : os) : os := set_on s (negb (saw s)).
Definition nosep (s : os) : os := set_on s false.
Definition sepOn (s : os) : os := let s := set_def s true in if son s then reset s else s.
Definition sepOff (s : os) : os := reset (set_def s false).
(** sepSet, sepSetTuple: 89-100; at most 15 characters *)
Definition sepSet (t : text) (s : os) : os := OS (sdef s) (son s) (anl s) (prt s) (saw s) (tup s) (firstn 15 t) (tups s) (out s).
Definition sepSetTuple (t : text) (s : os) : os := OS (sdef s) (son s) (anl s) (prt s) (saw s) (tup s) (seps s) (firstn 15 t) (out s).
(** the mask, iostream.cfa:232-244 *)
Definition mem (c : ascii) (l : text) : bool := existsb (Ascii.eqb c) l.
Definition chars (s : string) (l : list nat) : text := list_ascii_of_string s ++ map ascii_of_nat l.
Definition m_open (c : ascii) : bool := mem c (chars "([{=$" [163; 165; 161; 191; 171]).
Definition m_close (c : ascii) : bool := mem c (chars ",.;!?%)]}" [162; 187]).
Definition m_both (c : ascii) : bool := mem c (chars "'`: " [34; 12; 10; 13; 9; 11]).
(** values: a number or other value with its text; a character; a string; a null string *)
Inductive item := Num (t : text) | Chr (c : ascii) | Str (s : text) | Null.
Definition print (x : item) (s : os) : os :=
  match x with
  | Num t => fmt t (lead true s)                                  (* iostream.cfa:44-48 and the others *)
  | Chr c => let s := fmt [c] s in nosep (if Ascii.eqb c nlc then set_nl s true else s) (* 51-55 *)
  | Null => fmt (list_ascii_of_string "0p") s                     (* 246 *)
  | Str [] => nosep s                                             (* 247 *)
  | Str ((c :: _) as t) =>                                        (* 249-269 *)
      let s := lead (negb (m_close c) && negb (m_both c)) s in
      let s := reset s in
      let l := last t c in
      let s := fmt t s in
      let s' := set_nl s false in
      let s := if son s && (negb (m_open l) && negb (m_both l)) then sep s' else nosep s' in
      if Ascii.eqb l nlc then set_nl s true else s
  end.
(** tuples, iostream.cfa:361-367: the rest is printed with the other separator *)
Fixpoint print_rest (l : list item) (s : os) : os :=
  match l with
  | [] => s
  | [x] => print x s
  | x :: r => set_tup (print_rest r (set_tup (print x s) true)) false
  end.
Definition print_tuple (a : item) (r : list item) (s : os) : os := set_tup (print_rest r (set_tup (print a s) true)) false.
(** nl and the other manipulators, 309-357 *)
Definition nl (s : os) : os := nosep (set_nl (set_prt (print (Chr nlc) s) false) true).
Inductive manip := Mnl | Mnonl | MnlOn | MnlOff | MsepVal | MsepTupleVal | Msep | Mnosep | MsepOn | MsepOff.
Definition apply (m : manip) (s : os) : os :=
  match m with
  | Mnl => nl s | Mnonl => set_prt s false | MnlOn => set_anl s true | MnlOff => set_anl s false
  | MsepVal => print (Str (seps s)) s | MsepTupleVal => print (Str (tups s)) s
  | Msep => sep s | Mnosep => nosep s | MsepOn => sepOn s | MsepOff => sepOff s
  end.
(** ends, fstream.cfa:102-107 *)
Definition ends (s : os) : os := if anl s then nl s else set_prt s false.
Inductive elem := I (x : item) | T (a b : item) (r : list item) | M (m : manip).
(** a part of a cascade, and its last part: OSTYPE_VOID_IMPL (iostream.hfa:88), iostream.cfa:303-307, 369-376 *)
Definition part (e : elem) (s : os) : os := match e with I x => print x s | T a b r => print_tuple a (b :: r) s | M m => apply m s end.
Definition last_part (e : elem) (s : os) : os :=
  match e with
  | M m => let s := apply m s in set_prt (if prt s then ends s else s) false
  | _ => ends (part e s)
  end.
Inductive act := Part (e : elem) | Last (e : elem) | Set_ (t : text) | SetT (t : text).
Definition do (a : act) (s : os) : os := match a with Part e => part e s | Last e => last_part e s | Set_ t => sepSet t s | SetT t => sepSetTuple t s end.
Definition run (l : list act) (s : os) : os := fold_left (fun s a => do a s) l s.
