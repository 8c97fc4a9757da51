(** Disjoint lists of nodes, and what the operations of the intrusive collections mean for them. *)
From Coq Require Import List Arith.
Import ListNotations.
Definition lists := nat -> list nat.
Definition set (L : lists) (l : nat) (xs : list nat) : lists := fun i => if i =? l then xs else L i.
Definition unlisted (L : lists) (n : nat) : Prop := forall l, ~ In n (L l).
Inductive op := AddHead (l n : nat) | AddTail (l n : nat) | DropHead (l : nat) | DropTail (l : nat) | Remove (l n : nat)
  | Transfer (s f : nat) | Split (s f n : nat) | Head (l : nat) | Tail (l : nat) | Empty (l : nat) | Listed (n : nat)
  | Succ (l n : nat) | Pred (l n : nat) | InsBef (l n : nat) (b : option nat) | InsAft (l : nat) (a : option nat) (n : nat) | Elems (l : nat) | ElemsRev (l : nat).
Inductive res := RNode (n : option nat) | RBool (b : bool) | RList (xs : list nat) | RVoid.
Inductive spec (L : lists) : op -> lists -> res -> Prop :=
| s_ah l n : unlisted L n -> spec L (AddHead l n) (set L l (n :: L l)) (RNode (Some n))
| s_at l n : unlisted L n -> spec L (AddTail l n) (set L l (L l ++ [n])) (RNode (Some n))
| s_dh l x v : L l = x :: v -> spec L (DropHead l) (set L l v) (RNode (Some x))
| s_dhe l : L l = [] -> spec L (DropHead l) L (RNode None)
| s_dt l u x : L l = u ++ [x] -> spec L (DropTail l) (set L l u) (RNode (Some x))
| s_dte l : L l = [] -> spec L (DropTail l) L (RNode None)
| s_rm l u x v : L l = u ++ x :: v -> spec L (Remove l x) (set L l (u ++ v)) (RNode (Some x))
| s_tr s f : s <> f -> spec L (Transfer s f) (set (set L f []) s (L s ++ L f)) RVoid
| s_sp s f u x v : s <> f -> L f = u ++ x :: v -> spec L (Split s f x) (set (set L f v) s (L s ++ u ++ [x])) RVoid
| s_h l : spec L (Head l) L (RNode (hd_error (L l)))
| s_t l : spec L (Tail l) L (RNode (hd_error (rev (L l))))
| s_e l : spec L (Empty l) L (RBool (match L l with [] => true | _ => false end))
| s_li n l : In n (L l) -> spec L (Listed n) L (RBool true)
| s_ln n : unlisted L n -> spec L (Listed n) L (RBool false)
| s_su l u x v : L l = u ++ x :: v -> spec L (Succ l x) L (RNode (hd_error v))
| s_pr l u x v : L l = u ++ x :: v -> spec L (Pred l x) L (RNode (hd_error (rev u)))
| s_ib l u x v n : unlisted L n -> L l = u ++ x :: v -> spec L (InsBef l n (Some x)) (set L l (u ++ n :: x :: v)) (RNode (Some n))
| s_ibn l n : unlisted L n -> spec L (InsBef l n None) (set L l (L l ++ [n])) (RNode (Some n))
| s_ia l u x v n : unlisted L n -> L l = u ++ x :: v -> spec L (InsAft l (Some x) n) (set L l (u ++ x :: n :: v)) (RNode (Some n))
| s_ian l n : unlisted L n -> spec L (InsAft l None n) (set L l (n :: L l)) (RNode (Some n))
| s_el l : spec L (Elems l) L (RList (L l))
| s_er l : spec L (ElemsRev l) L (RList (rev (L l))).
(** a history of operations, with their results *)
Inductive runs : lists -> list op -> lists -> list res -> Prop :=
| runs_nil L : runs L [] L []
| runs_cons L o L1 r os L2 rs : spec L o L1 r -> runs L1 os L2 rs -> runs L (o :: os) L2 (r :: rs).
Definition none : lists := fun _ => [].
(** the operations of each collection *)
Definition stack_op (o : op) : bool := match o with AddHead _ _ | DropHead _ | Head _ | Empty _ | Listed _ | Elems _ => true | _ => false end.
Definition queue_op (o : op) : bool := match o with Pred _ _ | InsBef _ _ _ | InsAft _ _ _ | ElemsRev _ => false | _ => true end.
