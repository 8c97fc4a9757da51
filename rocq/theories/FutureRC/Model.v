(** Handles of reference-counted futures: future_rc, libcfa/src/concurrency/future.hfa:227-318. Any number of threads; one transition per atomic instruction on the
    shared part (future_rc_impl$: its count, its memory). A handle itself is not shared: no thread changes or destroys a handle that another
    thread is reading, so reading a handle's pointer is folded into the atomic instruction that follows. The future inside is the subject of Future/. *)
From Coq Require Import List Bool Arith ZArith.
Import ListNotations.
(** what a thread is in the middle of: delete( impl ), then nothing or the second half of an assignment to handle l from handle r *)
Inductive pc := Rest | Del (i : nat) | AsDel (l i r : nat) | AsInc (l r : nat).
(** handles that exist with the impl they point at; for each impl its refCnt and whether its memory is allocated; impls are numbered in order of allocation;
    freed: the impls deleted so far *)
Record state := S { hs : list (nat * nat); cnt : nat -> Z; next : nat; freed : list nat; at_ : nat -> pc; fault : bool }.
Definition upd {X} (f : nat -> X) (i : nat) (x : X) : nat -> X := fun j => if j =? i then x else f j.
Definition allocated (s : state) (i : nat) : bool := (i <? next s) && negb (existsb (Nat.eqb i) (freed s)).
Definition lookup (s : state) (h : nat) : option nat := option_map snd (find (fun e => fst e =? h) (hs s)).
Definition drop (s : state) (h : nat) : list (nat * nat) := filter (fun e => negb (fst e =? h)) (hs s).
Definition goto (s : state) (t : nat) (p : pc) : state := S (hs s) (cnt s) (next s) (freed s) (upd (at_ s) t p) (fault s).
Definition bad (s : state) : state := S (hs s) (cnt s) (next s) (freed s) (at_ s) true.
(** incRef$, decRef$, 237-243: the state and the old count *)
Definition add (s : state) (i : nat) (d : Z) : state * Z :=
  if allocated s i then (S (hs s) (upd (cnt s) i (cnt s i + d)%Z) (next s) (freed s) (at_ s) (fault s), cnt s i) else (bad s, 0%Z).
Definition with_hs (s : state) (l : list (nat * nat)) : state := S l (cnt s) (next s) (freed s) (at_ s) (fault s).
Definition delete (s : state) (i : nat) : state :=
  if allocated s i then S (hs s) (cnt s) (next s) (i :: freed s) (at_ s) (fault s) else bad s.
(** the constructors 274-281, the destructor 283-285, assignment 287-293 *)
Inductive act := New (h : nat) | Copy (to from : nat) | Destroy (h : nat) | Assign (l r : nat) | Go.
(** [used r s] : some thread is assigning from r; ths are the threads that exist *)
Definition reads (p : pc) (r : nat) : bool := match p with AsDel _ _ r' | AsInc _ r' => r' =? r | _ => false end.
(** handles being assigned to exist, but are not in hs *)
Definition writes (p : pc) (l : nat) : bool := match p with AsDel l' _ _ | AsInc l' _ => l' =? l | _ => false end.
Definition used (ths : list nat) (s : state) (r : nat) : bool := existsb (fun t => reads (at_ s t) r) ths.
Definition exists_ (ths : list nat) (s : state) (h : nat) : bool :=
  match lookup s h with Some _ => true | None => existsb (fun t => writes (at_ s t) h) ths end.
Definition step (ths : list nat) (s : state) (t : nat) (a : act) : option state :=
  if fault s || negb (existsb (Nat.eqb t) ths) then None else
  match at_ s t, a with
  | Rest, New h => if exists_ ths s h then None
      else Some (S ((h, next s) :: hs s) (upd (cnt s) (next s) 1%Z) (next s + 1) (freed s) (at_ s) (fault s))
  | Rest, Copy h from => if exists_ ths s h then None else
      match lookup s from with
      | Some i => let (s1, _) := add s i 1 in Some (with_hs s1 ((h, i) :: hs s1))
      | None => None
      end
  | Rest, Destroy h => if used ths s h then None else
      match lookup s h with
      | Some i => let (s1, n) := add (with_hs s (drop s h)) i (-1) in Some (if (n =? 1)%Z then goto s1 t (Del i) else s1)
      | None => None
      end
  | Del i, Go => Some (goto (delete s i) t Rest)
  | Rest, Assign l r => if used ths s l then None else
      match lookup s l, lookup s r with
      | Some i, Some j => if i =? j then Some s
          else let (s1, n) := add (with_hs s (drop s l)) i (-1) in Some (goto s1 t (if (n =? 1)%Z then AsDel l i r else AsInc l r))
      | _, _ => None
      end
  | AsDel l i r, Go => Some (goto (delete s i) t (AsInc l r))
  | AsInc l r, Go => match lookup s r with
      | Some j => let (s1, _) := add s j 1 in Some (goto (with_hs s1 ((l, j) :: hs s1)) t Rest)
      | None => None
      end
  | _, _ => None
  end.
Definition start : state := S [] (fun _ => 0%Z) 0 [] (fun _ => Rest) false.
Fixpoint run (ths : list nat) (s : state) (l : list (nat * act)) : option state :=
  match l with [] => Some s | (t, a) :: l => match step ths s t a with Some s1 => run ths s1 l | None => None end end.
