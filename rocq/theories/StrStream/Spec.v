(** A bounded stream: the text not yet written out and the bytes written; a text that does not fit with its null ends the program. Words of a text. *)
From Coq Require Import ZArith List Bool.
From Verif.StrStream Require Import Model.
Import ListNotations.
Open Scope Z_scope.
Record abs := Abs { pending : list Z; written : list Z }.
Definition spec_step (n : Z) (o : op) (a : abs) : option abs :=
  match o with
  | Fmt (Text t) => if Z.of_nat (length (pending a ++ t)) <? n then Some (Abs (pending a ++ t) (written a)) else None
  | Fmt (Fail _) => None
  | Write => Some (Abs [] (written a ++ pending a))
  | Clear => Some (Abs [] (written a))
  end.
Fixpoint spec_run (n : Z) (l : list op) (a : abs) : option abs :=
  match l with [] => Some a | o :: l => match spec_step n o a with Some a => spec_run n l a | None => None end end.
(** formatting succeeds *)
Definition fine (o : op) : Prop := match o with Fmt (Text t) => Z.of_nat (length t) <= 2 ^ 31 - 1 | Fmt (Fail _) => False | _ => True end.
(** the maximal sequences of characters other than white space *)
Definition space (c : Z) : Prop := c = 32 \/ 9 <= c <= 13.
Definition is_word (w : list Z) : Prop := w <> [] /\ forall c, In c w -> ~ space c.
Inductive words : list Z -> list (list Z) -> Prop :=
| words_nil : words [] []
| words_space : forall c l ws, space c -> words l ws -> words (c :: l) ws
| words_last : forall w, is_word w -> words w [w]
| words_cons : forall w c l ws, is_word w -> space c -> words l ws -> words (w ++ c :: l) (w :: ws).
(** words with one blank or tab between them *)
Fixpoint spaced (ws : list (list Z * Z)) (w : list Z) : list Z := match ws with [] => w | (v, c) :: ws => v ++ c :: spaced ws w end.
