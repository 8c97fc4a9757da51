(** What is expected of the arbiter. *)
From Coq Require Import List Bool Arith ZArith.
From Verif.IoRing Require Import Model.
From Verif.IoArbiter Require Import Model.
Import ListNotations.
Open Scope Z_scope.
(** requests are served in order while there are enough entries: how many of the requests can be served with so many entries *)
Fixpoint served (have : Z) (reqs : list nat) : nat := match reqs with [] => 0 | w :: r => if Z.of_nat w <=? have then S (served (have - Z.of_nat w) r) else 0 end.
(** the requests of other threads that are in the ring, in order *)
Definition external (s : st) : list (nat * list Z) := concat (map (fun b => match fst b with Some t => [(t, snd b)] | None => [] end) (kr s)).
(** from the actions alone: the requests, and what the owner submitted *)
Definition requests (l : list act) : list (nat * list Z) := concat (map (fun a => match a with Ext t e => [(t, e)] | _ => [] end) l).
Definition owned (l : list act) : list (list Z) := concat (map (fun a => match a with Own e => [e] | _ => [] end) l).
Definition own (s : st) : list (list Z) := concat (map (fun b => match fst b with Some _ => [] | None => [snd b] end) (kr s)).
Definition reach (n : nat) (l : list act) (s : st) : Prop := steps (start n) l = Some s.
Definition inside (c : pc) : bool := match c with In | Sub _ _ | Wake _ => true | _ => false end.
Definition awake (c : pc) : bool := match c with Asleep => false | _ => true end.
Definition by_processors (l : list act) : Prop := Forall (fun a => match a with Go _ | Begin _ => True | _ => False end) l.
