(** The arbiter of the I/O, libcfa/src/concurrency/io.cfa:587-746: allocations that wait for free entries, and submissions to the ring of another processor. *)
From Coq Require Import List Bool Arith ZArith.
From Verif.IoRing Require Import Model.
Import ListNotations.
Open Scope Z_scope.
(** 1. __ioarbiter_notify, io.cfa:632-674. Requests are the numbers of entries that threads wait for, in order of arrival. The result: for each thread that is woken, the entries that were written to its array (None: __alloc failed and nothing was written; the thread is woken all the same), the ring, and the requests that go on waiting. *)
Fixpoint notify (r : ring) (reqs : list nat) : list (option (list Z)) * ring * list nat :=
  match reqs with
  | [] => ([], r, [])
  | w :: rest =>
      if Z.of_nat w <? w32 (ft r - fh r) then ([], r, reqs)               (** io.cfa:650 *)
      else match alloc r w with                                           (** io.cfa:653-665 *)
           | Some (l, r') => let '(gs, r2, more) := notify r' rest in (Some l :: gs, r2, more)
           | None => let '(gs, r2, more) := notify r rest in (None :: gs, r2, more)
           end
  end.
(** 2. An allocation that fails and then waits, io.cfa:412-452 and 613-630, against the release of entries with its notification, io.cfa:578-582 and 676-680. The thread looks at the ring, then enqueues its request, then waits; sound: the notification serves the requests that can be served (as it should), or does what the code does. *)
Inductive cl := Looks (w : nat) | Failed (w : nat) | Waits | Has (l : list Z).
Record al := AL { rg : ring; waiting : list nat; client : cl }.
Fixpoint serve (r : ring) (reqs : list nat) : list (option (list Z)) * ring * list nat :=
  match reqs with
  | [] => ([], r, [])
  | w :: rest => match alloc r w with Some (l, r') => let '(gs, r2, more) := serve r' rest in (Some l :: gs, r2, more) | None => ([], r, reqs) end
  end.
Inductive aact := Client | Kernel (n : nat).
Definition astep (sound : bool) (s : al) (a : aact) : option al :=
  match a with
  | Client => match client s with
      | Looks w => match alloc (rg s) w with Some (l, r') => Some (AL r' (waiting s) (Has l)) | None => Some (AL (rg s) (waiting s) (Failed w)) end
      | Failed w => Some (AL (rg s) (waiting s ++ [w]) Waits)
      | _ => None
      end
  | Kernel n => let r := snd (enter (rg s) (Some n)) in
      match waiting s with
      | [] => Some (AL r [] (client s))
      | _ => let '(gs, r', more) := (if sound then serve else notify) r (waiting s) in
             Some (AL r' more (match gs with Some l :: _ => Has l | None :: _ => Has [] | [] => client s end))
      end
  end.
(** 3. Submissions to the ring of another processor: __ioarbiter_submit, io.cfa:682-713, and __ioarbiter_flush, io.cfa:715-746. Processor 0 owns the ring, the others may help. A request is a thread and its entries.
    Processors: Run; Test: about to test whether the queue is empty; Get: about to lock; In: with the lock, at the top of the loop; Sub: has removed a request; Wake: has put its entries into the ring, about to wake the thread; Call: after the flush, about to do the system call (ioring_syscsll, which ends by clearing pending); Flushed; Asleep: idle_sleep, kernel.cfa:704-747 *)
Inductive pc := Run | Test | Get | In | Sub (t : nat) (l : list Z) | Wake (t : nat) | Call | Flushed | Asleep.
(** queue, its flag empty, its lock; what was put into the ring, with the thread that asked for it, None for the owner's; processors; pending; threads that have enqueued and have not yet marked and signalled, with whether the queue was empty; threads woken; number of submissions that no system call has passed on; all requests, in order *)
Record st := X { q : list (nat * list Z); flag : bool; lk : bool; kr : list (option nat * list Z); ps : list pc; pend : bool; todo : list bool; woken : list nat; ts : nat; asked : list (nat * list Z) }.
Inductive act := Ext (t : nat) (l : list Z) | Mark | Own (l : list Z) | Go (p : nat) | Begin (p : nat) | Nap.
Definition at_ (s : st) (p : nat) (c : pc) : st := X (q s) (flag s) (lk s) (kr s) (put p c (ps s)) (pend s) (todo s) (woken s) (ts s) (asked s).
Definition step (s : st) (a : act) : option st :=
  match a with
  | Ext t l => if lk s then None else   (** enqueue, io.cfa:590-607 *)
      Some (X (q s ++ [(t, l)]) false (lk s) (kr s) (ps s) (pend s) (todo s ++ [match q s with [] => true | _ => false end]) (woken s) (ts s) (asked s ++ [(t, l)]))
  | Mark => match todo s with           (** io.cfa:697-706: the signal interrupts the sleep, and does nothing otherwise (preemption.cfa:557) *)
      | [] => None
      | we :: r => Some (X (q s) (flag s) (lk s) (kr s) (match ps s with Asleep :: o => (if we then Run else Asleep) :: o | l => l end) true r (woken s) (ts s) (asked s))
      end
  | Own l => match nth_error (ps s) 0 with   (** __submit_only by the owner, with the lock, io.cfa:457-482 *)
      | Some Run => if lk s then None else Some (X (q s) (flag s) (lk s) (kr s ++ [(None, l)]) (ps s) true (todo s) (woken s) (S (ts s)) (asked s))
      | _ => None
      end
  | Begin p => match nth_error (ps s) p with Some Run => Some (at_ s p Test) | _ => None end
  | Nap => match nth_error (ps s) 0 with Some Flushed => Some (at_ s 0 Asleep) | _ => None end
  | Go p =>
      match nth_error (ps s) p with
      | Some Test => Some (at_ s p (if flag s then Call else Get))                                             (** io.cfa:718 *)
      | Some Get => if lk s then None else Some (at_ (X (q s) (flag s) true (kr s) (ps s) (pend s) (todo s) (woken s) (ts s) (asked s)) p In)   (** io.cfa:725 *)
      | Some In =>
          match q s with
          | (t, l) :: r => Some (at_ (X r (flag s) (lk s) (kr s) (ps s) (pend s) (todo s) (woken s) (ts s) (asked s)) p (Sub t l))             (** io.cfa:729-731 *)
          | [] => Some (at_ (X [] true false (kr s) (ps s) (pend s) (todo s) (woken s) (ts s) (asked s)) p Call)                              (** io.cfa:742-745 *)
          end
      | Some (Sub t l) => Some (at_ (X (q s) (flag s) (lk s) (kr s ++ [(Some t, l)]) (ps s) true (todo s) (woken s) (S (ts s)) (asked s)) p (Wake t))  (** io.cfa:734 *)
      | Some (Wake t) => Some (at_ (X (q s) (flag s) (lk s) (kr s) (ps s) (pend s) (todo s) (woken s ++ [t]) (ts s) (asked s)) p In)          (** io.cfa:738 *)
      | Some Call => Some (at_ (if Nat.eqb (ts s) 0 then s else X (q s) (flag s) (lk s) (kr s) (ps s) false (todo s) (woken s) 0 (asked s)) p Flushed)                   (** io.cfa:245-247 and 142 *)
      | Some Flushed => Some (at_ s p Run)
      | _ => None
      end
  end.
Fixpoint steps (s : st) (l : list act) : option st := match l with [] => Some s | a :: l => match step s a with Some s' => steps s' l | None => None end end.
Definition start (n : nat) : st := X [] true false [] (repeat Run n) false [] [] 0 [].
