(** Configuration files: libcfa/src/parseconfig.cfa:74-198, with the reading of words and of the rest of a line of libcfa/src/iostream.cfa:984-988,1049-1099.
    The file is the list of its characters. Not modelled: failure to open the file, overflow of size_t and int. *)
From Coq Require Import Ascii String List Bool Arith ZArith.
Import ListNotations.
Notation text := (list ascii).
Definition nlc : ascii := "010".
Definition hash : ascii := "#".
(** isspace *)
Definition is_space (c : ascii) : bool := let n := nat_of_ascii c in (n =? 32) || ((9 <=? n) && (n <=? 13)).
(** in | wdi( wd, s ): leading white space is skipped, at most wd-1 characters are read; Eof and Long: the exceptions end_of_file and cstring_length *)
Inductive rd := Eof | Long | Word (w rest : text).
Fixpoint skip (l : text) : text := match l with c :: r => if is_space c then skip r else l | [] => [] end.
Fixpoint take (n : nat) (l : text) : text * text :=
  match n, l with
  | S n, c :: r => if is_space c then ([], l) else let (w, r) := take n r in (c :: w, r)
  | _, _ => ([], l)
  end.
Definition rd_word (wd : nat) (l : text) : rd :=
  match skip l with
  | [] => Eof
  | l => let (w, r) := take (wd - 1) l in match r with c :: _ => if is_space c then Word w r else Long | [] => Word w r end
  end.
(** in | nl *)
Fixpoint rd_nl (l : text) : text := match l with [] => [] | c :: r => if Ascii.eqb c nlc then r else rd_nl r end.
(** parse_tabular_config_format, 121-152, and comments, 106-118; the exception cstring_length leaves the function; None: out of fuel *)
Inductive res := Pairs (l : list (text * text)) | Overlong.
Definition is_comment (k : text) : bool := match k with c :: _ => Ascii.eqb c hash | [] => false end.
Fixpoint tabular (f : nat) (l : text) : option res :=
  match f with
  | O => None
  | S f =>
    match rd_word 64 l with
    | Eof => Some (Pairs [])
    | Long => Some Overlong
    | Word k r =>
      if is_comment k then tabular f (rd_nl r)
      else match rd_word 256 r with
           | Eof => Some (Pairs [])
           | Long => Some Overlong
           | Word v r => match tabular f (rd_nl r) with Some (Pairs p) => Some (Pairs ((k, v) :: p)) | x => x end
           end
    end
  end.
(** add_kv_pair, 89-103: size, max_size, the index of data written; the bytes asked for a string and the bytes written to it *)
Definition add_pair (s : nat * nat) : (nat * nat) * nat :=
  let (size, max) := s in
  let max := if max =? 0 then 1 else if size =? max then max * 2 else max in
  ((S size, max), size).
Fixpoint add_pairs (n : nat) (s : nat * nat) : nat * nat := match n with O => s | S n => add_pairs n (fst (add_pair s)) end.
Definition asked (t : text) : nat := length t.
Definition written (t : text) : nat := length t + 1.
(** parse_config, 155-198. A value is a number or the address of the string of the pair i (libcfa/src/parseargs.cfa:333-336) *)
Inductive val := VNum (z : Z) | VPtr (i : nat).
Record entry := Entry { key : text; parse : nat -> text -> option val; valid : val -> bool }.
Definition parse_str (i : nat) (_ : text) : option val := Some (VPtr i).
Definition eqt (a b : text) : bool := if list_eq_dec ascii_dec a b then true else false.
Fixpoint find (k : text) (es : list entry) : option (nat * entry) :=
  match es with [] => None | e :: es => if eqt k (key e) then Some (0, e) else match find k es with Some (j, x) => Some (S j, x) | None => None end end.
Fixpoint upd {A} (j : nat) (x : A) (l : list A) : list A := match l, j with [], _ => [] | _ :: r, O => x :: r | y :: r, S j => y :: upd j x r end.
(** vars: the variables of the entries, None if not set *)
Inductive out := Done (vars : list (option val)) | ParseFail (k v : text) | ValidFail (k v : text) | Missing (n : nat).
Definition finish (num sofar : nat) (vars : list (option val)) : out := if sofar <? num then Missing (num - sofar) else Done vars.
Fixpoint conf (es : list entry) (ps : list (text * text)) (i sofar : nat) (vars : list (option val)) : out :=
  match ps with
  | [] => finish (length es) sofar vars
  | (k, v) :: r =>
    if sofar =? length es then finish (length es) sofar vars
    else match find k es with
         | None => conf es r (S i) sofar vars
         | Some (j, e) =>
           match parse e i v with
           | None => ParseFail k v
           | Some x => let vars := upd j (Some x) vars in if valid e x then conf es r (S i) (S sofar) vars else ValidFail k v
           end
         end
  end.
(** the strings of all pairs are freed in the end, 83-87,197 *)
Definition parse_config (es : list entry) (ps : list (text * text)) : out * list nat := (conf es ps 0 0 (map (fun _ => None) es), seq 0 (length ps)).
