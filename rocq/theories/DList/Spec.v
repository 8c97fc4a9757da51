(** What a set of disjoint lists of elements does. Lists and elements are numbers; [L l] is the content of list l. *)
From Coq Require Import List Arith.
Import ListNotations.
Definition lists := nat -> list nat.
Definition set (L : lists) (l : nat) (xs : list nat) : lists := fun i => if i =? l then xs else L i.
Definition unlisted (L : lists) (n : nat) : Prop := forall l, ~ In n (L l).
(** a position: an element, or the origin of a list *)
Inductive ref := Orig (l : nat) | Node (n : nat).
Inductive op := InsBefore (p : ref) (n : nat) | InsAfter (p : ref) (n : nat) | Remove (n : nat)
  | InsFirst (l n : nat) | InsLast (l n : nat) | RemFirst (l : nat) | RemLast (l : nat)
  | First (l : nat) | Last (l : nat) | Empty (l : nat) | Listed (n : nat) | Next (n : nat) | Prev (n : nat).
Inductive res := RNode (n : option nat) | RBool (b : bool).
Inductive spec (L : lists) : op -> lists -> res -> Prop :=
| s_ib l u x v n : unlisted L n -> L l = u ++ x :: v -> spec L (InsBefore (Node x) n) (set L l (u ++ n :: x :: v)) (RNode (Some n))
| s_ibo l n : unlisted L n -> spec L (InsBefore (Orig l) n) (set L l (L l ++ [n])) (RNode (Some n))
| s_ia l u x v n : unlisted L n -> L l = u ++ x :: v -> spec L (InsAfter (Node x) n) (set L l (u ++ x :: n :: v)) (RNode (Some n))
| s_iao l n : unlisted L n -> spec L (InsAfter (Orig l) n) (set L l (n :: L l)) (RNode (Some n))
| s_rm l u x v : L l = u ++ x :: v -> spec L (Remove x) (set L l (u ++ v)) (RNode (Some x))
| s_if l n : unlisted L n -> spec L (InsFirst l n) (set L l (n :: L l)) (RNode (Some n))
| s_il l n : unlisted L n -> spec L (InsLast l n) (set L l (L l ++ [n])) (RNode (Some n))
| s_rf l x v : L l = x :: v -> spec L (RemFirst l) (set L l v) (RNode (Some x))
| s_rfe l : L l = [] -> spec L (RemFirst l) L (RNode None)
| s_rl l u x : L l = u ++ [x] -> spec L (RemLast l) (set L l u) (RNode (Some x))
| s_rle l : L l = [] -> spec L (RemLast l) L (RNode None)
| s_f l : spec L (First l) L (RNode (hd_error (L l)))
| s_l l : spec L (Last l) L (RNode (hd_error (rev (L l))))
| s_e l : spec L (Empty l) L (RBool (match L l with [] => true | _ => false end))
| s_li n l : In n (L l) -> spec L (Listed n) L (RBool true)
| s_ln n : unlisted L n -> spec L (Listed n) L (RBool false)
| s_n l u x v : L l = u ++ x :: v -> spec L (Next x) L (RNode (hd_error v))
| s_nu x : unlisted L x -> spec L (Next x) L (RNode None)
| s_p l u x v : L l = u ++ x :: v -> spec L (Prev x) L (RNode (hd_error (rev u)))
| s_pu x : unlisted L x -> spec L (Prev x) L (RNode None).
