(** Streams in memory: libcfa/src/strstream.cfa:77-89, 127-160, 182-207. The separators are those of files (topic OStream). What formatting produces is a parameter: a text, or an
    error with the part written before it; reading is the format %s. Memory maps addresses to bytes; sizes and cursors are 64-bit numbers. *)
From Coq Require Import ZArith List Bool.
Import ListNotations.
Open Scope Z_scope.
Definition W : Z := 2 ^ 64.
Definition int_max : Z := 2 ^ 31 - 1.
Definition len (t : list Z) : Z := Z.of_nat (length t).
Definition put (m : Z -> Z) (a : Z) (t : list Z) : Z -> Z := fun x => if (a <=? x) && (x <? a + len t) then nth (Z.to_nat (x - a)) t 0 else m x.
(** C standard, vsnprintf: at most n - 1 characters and a null, nothing for n = 0; the result is the full length, negative after an error or when it does not fit an int *)
Inductive formatted := Text (t : list Z) | Fail (written : list Z).
Definition vsnprintf (m : Z -> Z) (a n : Z) (r : formatted) : (Z -> Z) * Z :=
  let t := match r with Text t => t | Fail t => t end in
  (if n =? 0 then m else put m a (firstn (Z.to_nat (n - 1)) t ++ [0]), match r with Text t => if len t <=? int_max then len t else -1 | Fail _ => -1 end).
(** struct ostrstream, strstream.hfa:26-29, with the memory and the bytes written to the file *)
Record os := Os { buf : Z; size : Z; cursor : Z; mem : Z -> Z; out : list Z }.
(** the constructor, 77-89 *)
Definition new (b n : Z) (m : Z -> Z) : os := Os b n 0 m [].
Inductive res := Done (len : Z) (s : os) | Abort (m : Z -> Z).
(** fmt, 127-142 *)
Definition fmt (r : formatted) (s : os) : res :=
  let (m, n) := vsnprintf (mem s) (buf s + cursor s) ((size s - cursor s) mod W) r in
  let c := (cursor s + n) mod W in
  if size s <=? c then Abort m else Done n (Os (buf s) (size s) c m (out s)).
Definition text_at (m : Z -> Z) (a n : Z) : list Z := map (fun i => m (a + Z.of_nat i)) (seq 0 (Z.to_nat n)).
(** write, 144-152, when fwrite succeeds; clear, 158-160 *)
Definition write (s : os) : res := Done 0 (Os (buf s) (size s) 0 (mem s) (out s ++ text_at (mem s) (buf s) (cursor s))).
Definition clear (s : os) : res := Done 0 (Os (buf s) (size s) 0 (mem s) (out s)).
Inductive op := Fmt (r : formatted) | Write | Clear.
Definition step (o : op) (s : os) : res := match o with Fmt r => fmt r s | Write => write s | Clear => clear s end.
Fixpoint run (l : list op) (s : os) : res := match l with [] => Done 0 s | o :: l => match step o s with Done _ s => run l s | Abort m => Abort m end end.
(** struct istrstream, strstream.hfa:86-90: the bytes from the cursor on, up to the null that ends the buffer, which is not in the list *)
(** C standard, sscanf with %s: white space is skipped, the next characters up to white space or the end are the word; None: end of file *)
Definition is_space (c : Z) : bool := (c =? 32) || ((9 <=? c) && (c <=? 13)).
Fixpoint skip (l : list Z) : list Z := match l with c :: l' => if is_space c then skip l' else l | [] => [] end.
Fixpoint word (l : list Z) : list Z := match l with c :: l' => if is_space c then [] else c :: word l' | [] => [] end.
Definition sscanf_s (l : list Z) : option (list Z) := match skip l with [] => None | l => Some (word l) end.
(** the loop, 202-205 *)
Fixpoint to_blank (l : list Z) : list Z := match l with c :: l' => if (c =? 32) || (c =? 9) then l else to_blank l' | [] => [] end.
(** fmt, 191-207: the word and the bytes left; None: abort *)
Definition ifmt (l : list Z) : option (list Z * list Z) :=
  match sscanf_s l with
  | None => None
  | Some w => Some (w, match to_blank l with [] => [] | _ :: l => l end)
  end.
Fixpoint reads (n : nat) (l : list Z) : option (list (list Z)) :=
  match n with O => Some [] | S n => match ifmt l with Some (w, l) => option_map (cons w) (reads n l) | None => None end end.
