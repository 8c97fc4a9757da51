(** Draining the completion ring of the I/O by several processors: libcfa/src/concurrency/io.cfa:145-233 (try_acquire and __cfa_do_drain), called for the own ring and for that of a processor that is helped, io.cfa:250-336.
    A completion is one number (the future and the result). *)
From Coq Require Import List Bool Arith ZArith.
From Verif.IoRing Require Import Model.
Import ListNotations.
Open Scope Z_scope.
(** where a processor is: outside; after the test of io.cfa:151-157; with the lock; in the loop of 192-204 over the completions head .. head+count, at i; about to do the system call of 218; about to unlock *)
Inductive pc := Out | Checked | Locked | Loop (head count : Z) (i : nat) | Sys | Unlock.
(** the ring (io/types.hfa:87-114: num, head, tail, cqes, try_lock); what the kernel keeps back because the ring is full; the processors; what they have fulfilled, in order, with the processor; all that the kernel has completed *)
Record st := CQ { num : Z; hd : Z; tl : Z; cqes : Z -> Z; lk : bool; over : list Z; ps : list pc; log : list (nat * Z); posted : list Z }.
(** the kernel: io_uring keeps completions back when the ring is full, or when others are kept back already; they come into the ring, as far as there is room, in io_uring_enter with IORING_ENTER_GETEVENTS (and possibly when the kernel likes) *)
Definition room (s : st) : Z := num s - w32 (tl s - hd s).
Definition push (s : st) (l : list Z) (ov : list Z) (post : list Z) : st :=
  CQ (num s) (hd s) (w32 (tl s + Z.of_nat (length l))) (write (num s) (cqes s) (tl s) 0 l) (lk s) ov (ps s) (log s) (posted s ++ post).
Definition kpost (s : st) (c : Z) : st :=
  if (match over s with [] => true | _ => false end) && (0 <? room s) then push s [c] [] [c] else push s [] (over s ++ [c]) [c].
Definition kflush (s : st) : st := let n := Nat.min (length (over s)) (Z.to_nat (room s)) in push s (firstn n (over s)) (skipn n (over s)) [].
Definition at_ (s : st) (p : nat) (c : pc) : st := CQ (num s) (hd s) (tl s) (cqes s) (lk s) (over s) (put p c (ps s)) (log s) (posted s).
Definition lock (s : st) (b : bool) : st := CQ (num s) (hd s) (tl s) (cqes s) b (over s) (ps s) (log s) (posted s).
Definition fulfil (s : st) (p : nat) (c : Z) : st := CQ (num s) (hd s) (tl s) (cqes s) (lk s) (over s) (ps s) (log s ++ [(p, c)]) (posted s).
Definition seen (s : st) (h : Z) : st := CQ (num s) h (tl s) (cqes s) (lk s) (over s) (ps s) (log s) (posted s).
(** Post, Flush: the kernel. Go p: the next step of processor p. ok: the system call succeeds *)
Inductive act := Post (c : Z) | Flush | Go (p : nat) (ok : bool).
Definition step (s : st) (a : act) : option st :=
  match a with
  | Post c => Some (kpost s c)
  | Flush => Some (kflush s)
  | Go p ok =>
      match nth_error (ps s) p with
      | None => None
      | Some Out => Some (at_ s p (if hd s =? tl s then Out else Checked))                               (** io.cfa:153-156 *)
      | Some Checked => Some (if lk s then at_ s p Out else at_ (lock s true) p Locked)                  (** io.cfa:160-167 *)
      | Some Locked => Some (at_ s p (Loop (hd s) (w32 (tl s - hd s)) 0))                                (** io.cfa:186-188; head is changed only with the lock *)
      | Some (Loop h n i) =>
          if Z.of_nat i <? n then Some (at_ (fulfil s p (cqes s (slot (num s) (w32 (h + Z.of_nat i))))) p (Loop h n (i + 1)))  (** io.cfa:192-203 *)
          else Some (at_ (seen s (w32 (h + n))) p (if n <? num s then Unlock else Sys))                  (** io.cfa:212-216 *)
      | Some Sys => Some (at_ (if ok then kflush s else s) p Locked)                                     (** io.cfa:218 *)
      | Some Unlock => Some (at_ (lock s false) p Out)                                                   (** io.cfa:227 *)
      end
  end.
Fixpoint steps (s : st) (l : list act) : option st := match l with [] => Some s | a :: l => match step s a with Some s' => steps s' l | None => None end end.
Definition start (m : Z) (c0 : Z -> Z) (n : nat) : st := CQ m 0 0 c0 false [] (repeat Out n) [] [].
