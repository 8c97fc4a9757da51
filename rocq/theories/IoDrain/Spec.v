(** What is expected of the draining: each completion is given to its future once, in the order of the kernel. *)
From Coq Require Import List Bool Arith ZArith.
From Verif.IoRing Require Import Model.
From Verif.IoDrain Require Import Model.
Import ListNotations.
Open Scope Z_scope.
(** the completions by the kernel, from the actions alone *)
Definition completed (l : list act) : list Z := concat (map (fun a => match a with Post c => [c] | _ => [] end) l).
Definition delivered (s : st) : list Z := map snd (log s).
(** processors that work on the ring *)
Definition working (c : pc) : bool := match c with Out | Checked => false | _ => true end.
Definition reach (k : Z) (c0 : Z -> Z) (n : nat) (l : list act) (s : st) : Prop := 0 <= k <= 31 /\ steps (start (2 ^ k) c0 n) l = Some s.
Definition by_processors (l : list act) : Prop := Forall (fun a => match a with Go _ _ => True | _ => False end) l.
