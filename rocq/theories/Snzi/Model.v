(** The scalable non-zero indicator of libcfa/src/concurrency/snzi.hfa: a tree of nodes, arrive and depart at any node, query at the root; any number of threads, one transition per atomic instruction on a node.
    A thread is a stack of frames, since arrive and depart call themselves on the parent. Sequentially consistent. The count of an inner node is a signed char and the version has 56 bits in the code; here both are unbounded.
    The root's value is one 64-bit word used as a counter, here an integer. *)
From Coq Require Import List Bool Arith ZArith.
Import ListNotations.
Open Scope nat_scope.
(** nodes 0 .. m-1; the root is the node without parent (snzi.hfa:33-37) *)
Record tree := { m : nat; parent : nat -> option nat }.
(** cnt and ver of __snzi_val_t (6-12) *)
Definition value := (Z * nat)%type.
(** __snzi_half (42) *)
Definition half : Z := (-1)%Z.
(** arrive_h (58-94): before the load of 62; the three tests of 64, 70 and 78 with their CAS; in arrive of the parent; the CAS of 81; the loop of 87; in depart of the parent. arrive_r (46-49) is at PRead *)
Inductive apc := PRead | P1 | P2 | P3 | InArr | P4 | Undo | InDep.
(** depart_h (96-109): before the load of 98, before the CAS of 100. depart_r (51-54) is at DRead *)
Inductive dpc := DRead | DCas.
(** arrive with x, undoArr and success; depart with x *)
Inductive frame := A (h : nat) (p : apc) (x : value) (u : nat) (ok : bool) | D (h : nat) (p : dpc) (x : value).
Record state := mk { val : nat -> value; root : Z; thr : list (list frame); client : nat -> nat }.
Definition upd {X} (f : nat -> X) (i : nat) (x : X) : nat -> X := fun j => if j =? i then x else f j.
Fixpoint set {X} (l : list X) (i : nat) (x : X) : list X := match l, i with [], _ => [] | _ :: l, 0 => x :: l | y :: l, S i => y :: set l i x end.
Definition veqb (a b : value) : bool := (fst a =? fst b)%Z && (snd a =? snd b).
(** the end of an iteration of the loop of 61 *)
Definition nxt (ok : bool) : apc := if ok then Undo else PRead.
(** arrive at p returns to its caller, or to the client *)
Definition ret_a (s : state) (i : nat) (p : nat) (r : list frame) : state :=
  match r with
  | A h InArr x u ok :: r => mk (val s) (root s) (set (thr s) i (A h P4 x u ok :: r)) (client s)
  | _ => mk (val s) (root s) (set (thr s) i r) (upd (client s) p (client s p + 1))
  end.
(** depart returns *)
Definition ret_d (s : state) (i : nat) (r : list frame) : state :=
  match r with
  | A h InDep x u ok :: r => mk (val s) (root s) (set (thr s) i (A h Undo x u ok :: r)) (client s)
  | _ => mk (val s) (root s) (set (thr s) i r) (client s)
  end.
Definition put (s : state) (i : nat) (k : list frame) : state := mk (val s) (root s) (set (thr s) i k) (client s).
Definition putv (s : state) (h : nat) (v : value) : state := mk (upd (val s) h v) (root s) (thr s) (client s).
Definition putr (s : state) (z : Z) : state := mk (val s) z (thr s) (client s).
(** one step of the topmost frame of thread i; a failing CAS loads the current value into x (14-20) *)
Definition arr (t : tree) (s : state) (i : nat) (h : nat) (p : apc) (x : value) (u : nat) (ok : bool) (r : list frame) : option state :=
  match p with
  | PRead => match parent t h with
      | None => Some (ret_a (putr s (root s + 1)) i h r)
      | Some _ => Some (put s i (A h P1 (val s h) u ok :: r))
      end
  | P1 => Some (if (1 <=? fst x)%Z then
        (if veqb (val s h) x then put (putv s h (fst x + 1, snd x)%Z) i (A h P2 x u true :: r) else put s i (A h P2 (val s h) u ok :: r))
      else put s i (A h P2 x u ok :: r))
  | P2 => Some (if (fst x =? 0)%Z then
        (if veqb (val s h) x then put (putv s h (half, S (snd x))) i (A h P3 (half, S (snd x)) u true :: r) else put s i (A h P3 (val s h) u ok :: r))
      else put s i (A h P3 x u ok :: r))
  | P3 => if (fst x =? half)%Z then
        match parent t h with Some q => Some (put s i (A q PRead (0%Z, 0) 0 false :: A h InArr x u ok :: r)) | None => None end
      else Some (put s i (A h (nxt ok) x u ok :: r))
  | P4 => Some (if veqb (val s h) x then put (putv s h (1%Z, snd x)) i (A h (nxt ok) x u ok :: r) else put s i (A h (nxt ok) (val s h) (S u) ok :: r))
  | Undo => match u with
      | 0 => Some (ret_a s i h r)
      | S u => match parent t h with Some q => Some (put s i (D q DRead (0%Z, 0) :: A h InDep x u ok :: r)) | None => None end
      end
  | InArr | InDep => None
  end.
Definition dep (t : tree) (s : state) (i : nat) (h : nat) (p : dpc) (x : value) (r : list frame) : option state :=
  match p with
  | DRead => match parent t h with
      | None => Some (ret_d (putr s (root s - 1)) i r)
      | Some _ => Some (put s i (D h DCas (val s h) :: r))
      end
  | DCas => Some (if veqb (val s h) x then
        let s1 := putv s h (fst x - 1, snd x)%Z in
        if (fst x =? 1)%Z then match parent t h with Some q => put s1 i (D q DRead (0%Z, 0) :: r) | None => s end else ret_d s1 i r
      else put s i (D h DRead x :: r))
  end.
(** a thread goes on; or, idle, it begins to arrive or to depart at node h. A client departs only after an arrival at the same node has completed *)
Inductive act := Go | Arrive (h : nat) | Depart (h : nat).
Definition step (t : tree) (s : state) (i : nat) (a : act) : option state :=
  match nth_error (thr s) i, a with
  | Some (A h p x u ok :: r), Go => arr t s i h p x u ok r
  | Some (D h p x :: r), Go => dep t s i h p x r
  | Some [], Arrive h => if h <? m t then Some (put s i [A h PRead (0%Z, 0) 0 false]) else None
  | Some [], Depart h => match client s h with S k => Some (mk (val s) (root s) (set (thr s) i [D h DRead (0%Z, 0)]) (upd (client s) h k)) | 0 => None end
  | _, _ => None
  end.
Definition start (k : nat) : state := mk (fun _ => (0%Z, 0)) 0 (repeat [] k) (fun _ => 0).
(** query (122-125) *)
Definition query (s : state) : bool := (0 <? root s)%Z.
Fixpoint run (t : tree) (s : state) (l : list (nat * act)) : option state :=
  match l with [] => Some s | (i, a) :: l => match step t s i a with Some s1 => run t s1 l | None => None end end.
(** the constructor (136-153): 2^depth leaves, their parents, ..., the root last *)
Definition built (depth : nat) : tree :=
  let r := 2 ^ (depth + 1) - 2 in {| m := r + 1; parent := fun i => if i <? r then Some (i / 2 + 2 ^ depth) else None |}.
(** the node of an index (159-169) *)
Definition leaf (depth : nat) (idx : Z) : nat := Z.to_nat (Z.land (Z.shiftr idx 2) (Z.shiftl 1 (Z.of_nat depth) - 1)).
