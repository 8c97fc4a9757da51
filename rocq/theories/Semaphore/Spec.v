(** Specification: a semaphore is a number of free permits and a FIFO of blocked threads. *)
From Coq Require Import ZArith List Bool Arith.
From Verif.Semaphore Require Import Model.
Import ListNotations.

Record asem := A { permits : nat; blocked : list tid }.
Definition aP (me : tid) (a : asem) : asem * bool :=
  match permits a with S n => (A n (blocked a), true) | O => (A 0 (blocked a ++ [me]), false) end.
Definition atry (a : asem) : asem * bool :=
  match permits a with S n => (A n (blocked a), true) | O => (a, false) end.
Definition aV (a : asem) : asem * bool * list tid :=
  match blocked a with t :: r => (A (permits a) r, true, [t]) | [] => (A (S (permits a)) [], false, []) end.
Definition asys := nat -> asem.
Definition aput (w : asys) (i : nat) (s : asem) : asys := fun j => if Nat.eqb j i then s else w j.
Definition astep (me : tid) (w : asys) (o : op) : asys * (bool * list tid) :=
  match o with
  | OP i => let (s, r) := aP me (w i) in (aput w i s, (r, []))
  | OTryP i => let (s, r) := atry (w i) in (aput w i s, (r, []))
  | OV i => let '(s, r, h) := aV (w i) in (aput w i s, (r, h))
  | OP2 i l =>                                    (* release l, then acquire i, in one step *)
      let '(sl, _, h) := aV (w l) in
      let w1 := aput w l sl in
      let (s, r) := aP me (w1 i) in (aput w1 i s, (r, h))
  end.
Fixpoint arun (w : asys) (os : list (tid * op)) : asys * list (bool * list tid) :=
  match os with
  | [] => (w, [])
  | (t, o) :: r => let (w1, x) := astep t w o in let (w2, xs) := arun w1 r in (w2, x :: xs)
  end.

(** Observations on a history and its results, for semaphore i. *)
Definition releases_op (i : nat) (o : op) : nat :=
  match o with OV j => if Nat.eqb j i then 1 else 0 | OP2 _ l => if Nat.eqb l i then 1 else 0 | _ => 0 end.
Definition acquires_from (i : nat) (o : op) : bool :=
  match o with OP j | OTryP j | OP2 j _ => Nat.eqb j i | OV _ => false end.
Definition may_block (o : op) : bool := match o with OP _ | OP2 _ _ => true | _ => false end.
(** threads that blocked on i, in order; threads released from i, in order; successful immediate acquisitions *)
Definition blocks_here (i : nat) (t : tid) (o : op) (x : bool * list tid) : list tid :=
  if acquires_from i o && may_block o && negb (fst x) then [t] else [].
Definition wakes_here (i : nat) (o : op) (x : bool * list tid) : list tid :=
  if Nat.ltb 0 (releases_op i o) then snd x else [].
Definition gets_here (i : nat) (o : op) (x : bool * list tid) : nat :=
  if acquires_from i o && fst x then 1 else 0.
Fixpoint log {B} (f : tid -> op -> bool * list tid -> list B) (os : list (tid * op)) (xs : list (bool * list tid)) : list B :=
  match os, xs with (t, o) :: r, x :: xr => f t o x ++ log f r xr | _, _ => [] end.
Definition blocked_log i := log (fun t o x => blocks_here i t o x).
Definition woken_log i := log (fun _ o x => wakes_here i o x).
Definition got i os xs := length (log (fun _ o x => repeat tt (gets_here i o x)) os xs).
Definition released i (os : list (tid * op)) := length (flat_map (fun p => repeat tt (releases_op i (snd p))) os).
(** acquisitions completed: immediate ones, and blocked threads that were released *)
Definition completed i os xs : nat := (got i os xs + length (woken_log i os xs))%nat.
