(** The submission ring of the I/O: libcfa/src/concurrency/io.cfa:102-143,383-405,454-482,536-585, libcfa/src/concurrency/io/setup.cfa:129-306.
    All counters are __u32 and run on for ever; arrays are maps from index to content. *)
From Coq Require Import List Bool Arith ZArith.
Import ListNotations.
Open Scope Z_scope.
Definition w32 (x : Z) : Z := x mod 2 ^ 32.
(** __sub_ring_t, io/types.hfa:38-84: number of entries; head, tail and released of the ring shared with the kernel; head and tail of the ring of free entries; to_submit; the two arrays *)
Record ring := R { nm : Z; kh : Z; kt : Z; rel : Z; fh : Z; ft : Z; ts : Z; karr : Z -> Z; farr : Z -> Z }.
(** x & mask, where mask is num - 1 *)
Definition slot (m x : Z) : Z := Z.land x (m - 1).
Definition iota (n : nat) : list Z := map Z.of_nat (seq 0 n).
Definition set (a : Z -> Z) (i x : Z) : Z -> Z := fun j => if j =? i then x else a j.
(** for( i; n ) ... array[ (h + i) & mask ] *)
Definition read (m : Z) (a : Z -> Z) (h : Z) (n : nat) : list Z := map (fun i => a (slot m (w32 (h + i)))) (iota n).
(** for( i; have ) array[ (t + i) & mask ] = l[i] *)
Fixpoint write (m : Z) (a : Z -> Z) (t i : Z) (l : list Z) : Z -> Z :=
  match l with [] => a | x :: l => write m (set a (slot m (w32 (t + i))) x) t (i + 1) l end.
(** __io_uring_setup, setup.cfa:205-214 (the kernel's counters start at 0, setup.cfa:264-270) *)
Definition setup (m : Z) (k0 : Z -> Z) : ring := R m 0 0 0 0 (w32 m) 0 k0 (fun i => i).
(** __alloc, io.cfa:383-405 *)
Definition alloc (r : ring) (want : nat) : option (list Z * ring) :=
  if w32 (ft r - fh r) <? Z.of_nat want then None
  else Some (read (nm r) (farr r) (fh r) want,
             R (nm r) (kh r) (kt r) (rel r) (w32 (fh r + Z.of_nat want)) (ft r) (ts r) (karr r) (farr r)).
(** __submit_only, io.cfa:454-482 *)
Definition submit (r : ring) (l : list Z) : ring :=
  R (nm r) (kh r) (w32 (kt r + Z.of_nat (length l))) (rel r) (fh r) (ft r) (w32 (ts r + Z.of_nat (length l))) (write (nm r) (karr r) (kt r) 0 l) (farr r).
(** __release_sqes, io.cfa:536-585 *)
Definition release (r : ring) : ring :=
  let count := w32 (kh r - rel r) in
  if count =? 0 then r
  else R (nm r) (kh r) (kt r) (kh r) (fh r) (w32 (ft r + count)) (ts r) (karr r) (write (nm r) (farr r) (ft r) 0 (read (nm r) (karr r) (rel r) (Z.to_nat count))).
(** ioring_syscsll, io.cfa:104-143: the kernel takes ret entries from the head of the ring; the flag pending is left out; None: EAGAIN or EBUSY, nothing is done *)
Definition enter (r : ring) (ret : option nat) : list Z * ring :=
  match ret with
  | None => ([], r)
  | Some n => (read (nm r) (karr r) (kh r) n,
               release (R (nm r) (w32 (kh r + Z.of_nat n)) (kt r) (rel r) (fh r) (ft r) (w32 (ts r - Z.of_nat n)) (karr r) (farr r)))
  end.
(** __io_uring_teardown, setup.cfa:281-289: false: abort *)
Definition teardown (r : ring) : bool := w32 (ft r - fh r) =? nm r.
Inductive op := Alloc (n : nat) | Submit (l : list Z) | Enter (ret : option nat).
Inductive out := Got (l : list Z) | Full | Done | Seen (l : list Z).
Definition step (r : ring) (o : op) : out * ring :=
  match o with
  | Alloc n => match alloc r n with Some (l, r') => (Got l, r') | None => (Full, r) end
  | Submit l => (Done, submit r l)
  | Enter n => let (l, r') := enter r n in (Seen l, r')
  end.
Fixpoint run (r : ring) (os : list op) : list out * ring :=
  match os with [] => ([], r) | o :: os => let (x, r1) := step r o in let (xs, r2) := run r1 os in (x :: xs, r2) end.
(** __release_sqes step by step, when several processors are in ioring_syscsll for the same ring: a processor flushes the ring of another one to help it, io.cfa:304-305, and takes no lock (the lock of __sub_ring_t, io/types.hfa:40, is never used). *)
Inductive pc := Idle | Head | Phead (chead : Z) | Ftail (chead phead : Z) | Copy (chead phead ftail : Z) | Store (tail : Z).
Inductive act := Owner (o : op) | Sys (p : nat) (n : nat) | Go (p : nat).
Fixpoint put {X} (i : nat) (x : X) (l : list X) : list X := match l, i with [], _ => [] | _ :: r, O => x :: r | y :: r, S i => y :: put i x r end.
Definition fine := (ring * list pc)%type.
Definition fstep (s : fine) (a : act) : option (out * fine) :=
  let (r, ps) := s in
  match a with
  | Owner (Enter _) => None
  | Owner o => let (x, r') := step r o in Some (x, (r', ps))
  | Sys p n => match nth_error ps p with (** the system call and the subtraction from to_submit *)
      | Some Idle => Some (Seen (read (nm r) (karr r) (kh r) n), (R (nm r) (w32 (kh r + Z.of_nat n)) (kt r) (rel r) (fh r) (ft r) (w32 (ts r - Z.of_nat n)) (karr r) (farr r), put p Head ps))
      | _ => None
      end
  | Go p => match nth_error ps p with
      | Some Head => Some (Done, (r, put p (Phead (kh r)) ps))                           (** io.cfa:544 *)
      | Some (Phead c) => Some (Done, (r, put p (Ftail c (rel r)) ps))                   (** io.cfa:545 *)
      | Some (Ftail c h) => Some (Done, (r, put p (if w32 (c - h) =? 0 then Idle else Copy c h (ft r)) ps))  (** io.cfa:547,564-568 *)
      | Some (Copy c h t) => let n := w32 (c - h) in                                     (** io.cfa:572-578 *)
          Some (Done, (R (nm r) (kh r) (kt r) c (fh r) (ft r) (ts r) (karr r) (write (nm r) (farr r) t 0 (read (nm r) (karr r) h (Z.to_nat n))), put p (Store (w32 (t + n))) ps))
      | Some (Store t) => Some (Done, (R (nm r) (kh r) (kt r) (rel r) (fh r) t (ts r) (karr r) (farr r), put p Idle ps))  (** io.cfa:579 *)
      | _ => None
      end
  end.
Fixpoint fsteps (s : fine) (l : list act) : option (list out * fine) :=
  match l with
  | [] => Some ([], s)
  | a :: l => match fstep s a with Some (x, s') => match fsteps s' l with Some (xs, s2) => Some (x :: xs, s2) | None => None end | None => None end
  end.
