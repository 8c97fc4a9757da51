(** Lists of processors as text: numbers and ranges separated by commas; and what the map has to be. *)
From Coq Require Import Ascii String ZArith List Bool Arith.
From Verif Require Import CpuMap.Model.
Import ListNotations.
Local Open Scope Z_scope.
(** a range: the digits of its first number, and of its last one *)
Record range := R { lo : text; hi : option text }.
Definition is_digit (c : ascii) : Prop := 48 <= Z.of_nat (nat_of_ascii c) <= 57.
Definition number (t : text) : Prop := t <> [] /\ Forall is_digit t.
Definition val (t : text) : Z := fold_left (fun a c => 10 * a + (Z.of_nat (nat_of_ascii c) - 48)) t 0.
Definition wf (r : range) : Prop :=
  number (lo r) /\ val (lo r) < 2 ^ 31 - 1 /\
  match hi r with Some h => number h /\ val (lo r) <= val h < 2 ^ 31 - 1 | None => True end.
Definition render (r : range) : text := lo r ++ match hi r with Some h => "-"%char :: h | None => [] end.
Fixpoint join (l : list text) : text := match l with [] => [] | [x] => x | x :: r => x ++ ","%char :: join r end.
Definition list_text (rs : list range) : text := join (map render rs).
Definition members (r : range) : list Z := match hi r with Some h => zseq (val (lo r)) (val h) | None => [val (lo r)] end.
Definition elements (rs : list range) : list Z := concat (map members rs).
(** the pieces of a text between commas *)
Fixpoint split (t : text) : list text :=
  match t with
  | [] => [[]]
  | c :: r => if Ascii.eqb c "," then [] :: split r else match split r with x :: xs => (c :: x) :: xs | [] => [[c]] end
  end.
Definition nonempty (t : text) : bool := match t with [] => false | _ => true end.

(** the processors of the machine: 0, ..., n-1; every cache lists exactly the processors with the same text *)
Definition cpus_of (n : nat) : list Z := map Z.of_nat (seq 0 n).
Definition sharing (n : nat) (llc : nat -> text) (c : nat) : list nat := filter (fun d => teqb (llc d) (llc c)) (seq 0 n).
Definition topology (n : nat) (llc : nat -> text) : Prop :=
  (0 < n)%nat /\ forall c, (c < n)%nat -> exists rs, rs <> [] /\ Forall wf rs /\ llc c = list_text rs /\ elements rs = map Z.of_nat (sharing n llc c).
(** qsort: the pairs ordered by cache *)
Definition sorted (q : list (nat * nat)) : Prop := forall l p r, q = l ++ p :: r -> forall p', In p' r -> (snd p <= snd p')%nat.
