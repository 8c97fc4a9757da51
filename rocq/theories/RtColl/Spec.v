(** Disjoint lists of nodes, and what the operations of the runtime's own collections mean for them. *)
From Coq Require Import List Arith.
From Verif.Collections Require Import Spec.
Import ListNotations.
Inductive qop := Append (l n : nat) | Peek (l : nat) | PopHead (l : nat) | RemoveAt (l i : nat) | NonEmpty (l : nat).
Inductive qspec (L : lists) : qop -> lists -> res -> Prop :=
| q_app l n : unlisted L n -> qspec L (Append l n) (set L l (L l ++ [n])) RVoid
| q_peek l : qspec L (Peek l) L (RNode (hd_error (L l)))
| q_pop l x r : L l = x :: r -> qspec L (PopHead l) (set L l r) (RNode (Some x))
| q_pope l : L l = [] -> qspec L (PopHead l) L (RNode None)
| q_rem l u x v : L l = u ++ x :: v -> qspec L (RemoveAt l (length u)) (set L l (u ++ v)) (RNode (Some x))
| q_ne l : qspec L (NonEmpty l) L (RBool (match L l with [] => false | _ => true end)).
Inductive sop := Push (l n : nat) | Pop (l : nat) | SNonEmpty (l : nat).
Inductive sspec (L : lists) : sop -> lists -> res -> Prop :=
| s_push l n : unlisted L n -> sspec L (Push l n) (set L l (n :: L l)) RVoid
| s_pop l x r : L l = x :: r -> sspec L (Pop l) (set L l r) (RNode (Some x))
| s_pope l : L l = [] -> sspec L (Pop l) L (RNode None)
| s_ne l : sspec L (SNonEmpty l) L (RBool (match L l with [] => false | _ => true end)).
Inductive dop := PushFront (l n : nat) | DRemove (l n : nat) | Move (s d n : nat) | DNonEmpty (l : nat).
Inductive dspec (L : lists) : dop -> lists -> res -> Prop :=
| d_pf l n : unlisted L n -> dspec L (PushFront l n) (set L l (n :: L l)) RVoid
| d_rm l u x v : L l = u ++ x :: v -> dspec L (DRemove l x) (set L l (u ++ v)) RVoid
| d_mv s d u x v : s <> d -> L s = u ++ x :: v -> dspec L (Move s d x) (set (set L s (u ++ v)) d (x :: L d)) RVoid
| d_mvs s u x v : L s = u ++ x :: v -> dspec L (Move s s x) (set L s (x :: u ++ v)) RVoid
| d_ne l : dspec L (DNonEmpty l) L (RBool (match L l with [] => false | _ => true end)).
Inductive runs {O} (sp : lists -> O -> lists -> res -> Prop) : lists -> list O -> lists -> list res -> Prop :=
| runs_nil L : runs sp L [] L []
| runs_cons L o L1 r os L2 rs : sp L o L1 r -> runs sp L1 os L2 rs -> runs sp L (o :: os) L2 (r :: rs).
