(** Configuration files as lines *)
From Coq Require Import Ascii String List Bool Arith.
From Verif Require Import Config.Model.
Import ListNotations.
Inductive line := Blank (ws : text) | Comment (ws txt : text) | Setting (ws k ws' v rest : text).
Definition line_text (l : line) : text :=
  match l with Blank ws => ws | Comment ws t => ws ++ hash :: t | Setting ws k ws' v rest => ws ++ k ++ ws' ++ v ++ rest end.
Definition blank (c : ascii) : bool := is_space c && negb (Ascii.eqb c nlc).
Definition word (t : text) : bool := forallb (fun c => negb (is_space c)) t && negb (length t =? 0).
Definition no_nl (t : text) : bool := forallb (fun c => negb (Ascii.eqb c nlc)) t.
(** length of the first word *)
Fixpoint first_len (t : text) : nat := match t with [] => 0 | c :: r => if is_space c then 0 else S (first_len r) end.
Definition ok_line (l : line) : bool :=
  match l with
  | Blank ws => forallb blank ws
  | Comment ws t => forallb blank ws && no_nl t && (first_len t <? 63)
  | Setting ws k ws' v rest =>
      forallb blank ws && word k && (length k <=? 63) && negb (is_comment k) && forallb blank ws' && negb (length ws' =? 0) &&
      word v && (length v <=? 255) && no_nl rest && match rest with [] => true | c :: _ => is_space c end
  end.
(** a file: lines that end with a newline, and a last one without *)
Definition file (ls : list line) (last : line) : text := concat (map (fun l => line_text l ++ [nlc]) ls) ++ line_text last.
Definition setting (l : line) : list (text * text) := match l with Setting _ k _ v _ => [(k, v)] | _ => [] end.
Definition settings (ls : list line) : list (text * text) := concat (map setting ls).
(** no key of an entry occurs twice in the file *)
Definition known (es : list entry) (k : text) : bool := existsb (fun e => eqt k (key e)) es.
Definition once (es : list entry) (ps : list (text * text)) : Prop := NoDup (filter (known es) (map fst ps)).
Definition absent (ps : list (text * text)) (e : entry) : bool := negb (existsb (fun p => eqt (fst p) (key e)) ps).
(** the entry is in the file with a good value, which its variable has *)
Definition assigned (ps : list (text * text)) (e : entry) (o : option val) : Prop :=
  exists i v x, nth_error ps i = Some (key e, v) /\ parse e i v = Some x /\ valid e x = true /\ o = Some x.
