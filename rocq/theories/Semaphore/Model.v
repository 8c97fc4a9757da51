(** Model of the counting semaphore, libcfa/src/concurrency/locks.cfa:589-658 and locks.hfa:87-114.
    Each operation is one transition: its body runs under the semaphore's spin lock (V unparks after releasing it,
    which no other thread can tell apart).  Threads are numbers; the FIFO queue __queue_t is a list, head first
    (its pop_head on an empty queue gives 0p, bits/collections.hfa:174-189).  Results: the returned value and the
    threads unparked, in order (unpark(0p) does nothing, kernel.cfa:556-557).  Counts are unbounded except where
    stated (V with a count). *)
From Coq Require Import ZArith List Bool Arith.
Import ListNotations.
Open Scope Z_scope.

Definition tid := nat.
Record sem := S_ { count : Z; waiting : list tid }.
Definition pop_head (q : list tid) : list tid * list tid := match q with [] => ([], []) | t :: r => ([t], r) end.

(** locks.cfa:595-606 *)
Definition P (me : tid) (s : sem) : sem * bool :=
  let c := count s - 1 in
  if c <? 0 then (S_ c (waiting s ++ [me]), false) else (S_ c (waiting s), true).
(** locks.cfa:629-638 *)
Definition try_P (s : sem) : sem * bool :=
  if count s <=? 0 then (s, false) else (S_ (count s - 1) (waiting s), true).
(** locks.cfa:640-650: new state, result, threads unparked *)
Definition V (s : sem) : sem * bool * list tid :=
  let c := count s + 1 in
  if c <=? 0 then let (h, r) := pop_head (waiting s) in (S_ c r, match h with [] => false | _ => true end, h)
  else (S_ c (waiting s), false, []).
(** locks.cfa:652-659: count$ is a 64-bit ssize_t; [(size_t)-count$] wraps *)
Definition Vn (s : sem) (n : Z) : sem * Z * list tid :=
  let release := Z.max ((- count s) mod 2 ^ 64) n in
  (S_ (count s + n) (skipn (Z.to_nat release) (waiting s)), release, firstn (Z.to_nat release) (waiting s)).
(** locks.cfa:608-627 when both arguments are the same semaphore *)
Definition P_self (me : tid) (s : sem) : sem * bool * list tid :=
  let (h, r) := if count s <? 0 then pop_head (waiting s) else ([], waiting s) in
  if count s <? 0 then (S_ (count s) (r ++ [me]), false, h) else (S_ (count s) r, true, h).

(** locks.hfa:114 *)
Definition empty (s : sem) : bool := count s =? 0.

(** A system of semaphores. *)
Definition sys := nat -> sem.
Definition put (w : sys) (i : nat) (s : sem) : sys := fun j => if Nat.eqb j i then s else w j.
Inductive op := OP (i : nat) | OTryP (i : nat) | OV (i : nat) | OP2 (i l : nat).
(** Result of an operation: returned value, threads unparked. *)
Definition step (me : tid) (w : sys) (o : op) : sys * (bool * list tid) :=
  match o with
  | OP i => let (s, r) := P me (w i) in (put w i s, (r, []))
  | OTryP i => let (s, r) := try_P (w i) in (put w i s, (r, []))
  | OV i => let '(s, r, h) := V (w i) in (put w i s, (r, h))
  | OP2 i l =>
      if Nat.eqb i l then let '(s, r, h) := P_self me (w i) in (put w i s, (r, h))
      else let '(sl, _, h) := V (w l) in                      (* locks.cfa:615: V( lock ) *)
           let w1 := put w l sl in
           let (s, r) := P me (w1 i) in (put w1 i s, (r, h))
  end.
Fixpoint run (w : sys) (os : list (tid * op)) : sys * list (bool * list tid) :=
  match os with
  | [] => (w, [])
  | (t, o) :: r => let (w1, x) := step t w o in let (w2, xs) := run w1 r in (w2, x :: xs)
  end.
(** locks.cfa:589-593 *)
Definition init (c : nat -> Z) : sys := fun i => S_ (c i) [].
