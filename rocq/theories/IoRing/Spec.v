(** What a submission ring is: entries are free, with a client, or waiting in a queue for the kernel. *)
From Coq Require Import List Bool Arith ZArith Permutation.
From Verif.IoRing Require Import Model.
Import ListNotations.
Open Scope Z_scope.
Record abs := A { free : list Z; held : list Z; queue : list Z }.
(** What happens: an allocation takes the entries that are free longest, when there are enough; clients submit, in any order, entries that they have; the kernel takes the entries that wait longest, no more than there are, and they are free again. *)
Inductive legal : abs -> op -> out -> abs -> Prop :=
  | l_alloc f h q n : (n <= length f)%nat -> legal (A f h q) (Alloc n) (Got (firstn n f)) (A (skipn n f) (firstn n f ++ h) q)
  | l_full f h q n : (length f < n)%nat -> legal (A f h q) (Alloc n) Full (A f h q)
  | l_submit f h h' q l : Permutation h (l ++ h') -> legal (A f h q) (Submit l) Done (A f h' (q ++ l))
  | l_enter f h q n : (n <= length q)%nat -> legal (A f h q) (Enter (Some n)) (Seen (firstn n q)) (A (f ++ firstn n q) h (skipn n q))
  | l_busy f h q : legal (A f h q) (Enter None) (Seen []) (A f h q).
Inductive legals : abs -> list op -> list out -> abs -> Prop :=
  | ls_nil a : legals a [] [] a
  | ls_cons a o x b os xs c : legal a o x b -> legals b os xs c -> legals a (o :: os) (x :: xs) c.
Definition start (m : nat) : abs := A (iota m) [] [].
(** clients and kernel keep to the rules, whatever the ring answers: the operations that are allowed, given what the clients have *)
Definition allowed (a : abs) (o : op) : Prop :=
  match o with Alloc _ => True | Submit l => exists h', Permutation (held a) (l ++ h') | Enter None => True | Enter (Some n) => (n <= length (queue a))%nat end.
(** entries as they went by: submitted, and seen by the kernel *)
Definition submitted (os : list op) : list Z := concat (map (fun o => match o with Submit l => l | _ => [] end) os).
Definition seen (xs : list out) : list Z := concat (map (fun x => match x with Seen l => l | _ => [] end) xs).
