(** Model of channels, libcfa/src/concurrency/channel.hfa, with plain threads and waituntil statements whose clauses
    are all OR-ed ("special OR", libcfa/src/concurrency/select.hfa).

    One transition per critical section of mutex_lock.  Threads and waituntil statements are numbers.  A queue node
    (select_node) is the number, whether it belongs to an OR waituntil (clause_status set, park_counter 0p), and for
    producers the element pointed to by [extra].  The clause_status word shared by the clauses of one waituntil is
    reduced to [won] : "some clause has won" (the PENDING stage is resolved inside the critical section).
    Not modelled: waituntil nodes with a park counter (AND clauses), statistics, the destructor, memory layout. *)
From Coq Require Import List Bool Arith.
Import ListNotations.

Record node {A : Type} := N { who : nat; isor : bool; pay : A }.
Arguments node : clear implicits.
Arguments N {A}.
Definition setw (w : nat -> bool) (i : nat) : nat -> bool := fun j => if Nat.eqb j i then true else w j.

(** __handle_waituntil_OR, select.hfa:153-166: discard OR nodes at the front whose statement has already been won,
    win the first OR node left; the queue is drained iff the result is empty. *)
Fixpoint settle {A} (w : nat -> bool) (q : list (node A)) : (nat -> bool) * list (node A) :=
  match q with
  | [] => (w, [])
  | n :: r => if isor n then (if w (who n) then settle w r else (setw w (who n), n :: r)) else (w, n :: r)
  end.

Section C.
Context {T : Type}.

(** channel.hfa:59-69; an element of [buffer] never written is [None] *)
Record chan := C { size : nat; front : nat; back : nat; count : nat; buffer : nat -> option T;
                   prods : list (node T); cons : list (node unit); closed : bool; won : nat -> bool }.

(** How an operation completed: by the caller itself (a plain thread / an OR waituntil), or for a queued node. *)
Inductive kind := Self (isor : bool) | Queued (isor : bool).
Inductive ev :=
  | Put (k : kind) (i : nat) (v : T)             (* element accepted from i *)
  | Got (k : kind) (i : nat) (v : option T)      (* element delivered to i *)
  | BlockP (o : bool) (i : nat) (v : T) | BlockC (o : bool) (i : nat)   (* queued as producer, consumer *)
  | ShutP (o : bool) (i : nat) (v : T) | ShutC (o : bool) (i : nat)     (* queued node woken by close *)
  | Closed (o : bool) (i : nat)                             (* caller found the channel closed; goes on with the closed_ routine *)
  | Fail (i : nat)                               (* operation would block *)
  | Throw (i : nat)                              (* channel_closed thrown *)
  | Hang (i : nat)                               (* __pending_set_other on the caller's own status word: spins for ever *)
  | Lost (i : nat).                              (* waituntil already decided elsewhere *)

(** channel.hfa:94-102 *)
Definition init (n : nat) : chan := C n 0 0 0 (fun _ => None) [] [] false (fun _ => false).

Definition with_cons c w q := C (size c) (front c) (back c) (count c) (buffer c) (prods c) q (closed c) w.
Definition with_prods c w q := C (size c) (front c) (back c) (count c) (buffer c) q (cons c) (closed c) w.
Definition wupd (b : nat -> option T) (i : nat) (v : option T) : nat -> option T := fun j => if Nat.eqb j i then v else b j.

(** channel.hfa:175-180 *)
Definition buf_insert (c : chan) (v : option T) : chan :=
  let b := back c + 1 in
  C (size c) (front c) (if b =? size c then 0 else b) (count c + 1) (wupd (buffer c) (back c) v)
    (prods c) (cons c) (closed c) (won c).

(** The common tail of insert (channel.hfa:232-256) and __internal_try_insert (189-202): hand to a waiting consumer,
    else [full], else buffer. *)
Definition put_or (o : bool) (c : chan) (i : nat) (v : T) (full : chan -> chan * list ev) : chan * list ev :=
  let (w, q) := settle (won c) (cons c) in
  let c := with_cons c w q in
  match q with
  | n :: r => (with_cons c w r, [Put (Self o) i v; Got (Queued (isor n)) (who n) (Some v)])   (* 159-162 *)
  | [] => if count c =? size c then full c else (buf_insert c (Some v), [Put (Self o) i v])
  end.
Definition block_prod (o : bool) (i : nat) (v : T) (c : chan) : chan * list ev :=
  (with_prods c (won c) (prods c ++ [N i o v]), [BlockP o i v]).
Definition fail (i : nat) (c : chan) : chan * list ev := (c, [Fail i]).

(** channel.hfa:215-257 *)
Definition insert (c : chan) (i : nat) (v : T) : chan * list ev :=
  if closed c then (c, [Closed false i]) else put_or false c i v (block_prod false i v).
(** channel.hfa:182-206 *)
Definition try_insert (c : chan) (i : nat) (v : T) : chan * list ev := put_or false c i v (fail i).
(** channel.hfa:209-213: [None] no resumption handler (the default one terminates, exception.h:156-158); [Some v']
    a handler returned, leaving v' as the element. *)
Definition closed_insert (c : chan) (i : nat) (res : option T) : chan * list ev :=
  match res with
  | None => (c, [Throw i])
  | Some v => put_or false c i v (fun c => (c, [Throw i]))
  end.

(** channel.hfa:260-269 *)
Definition do_remove (o : bool) (c : chan) (i : nat) : chan * list ev :=
  let v := buffer c (front c) in
  let c := C (size c) ((front c + 1) mod size c) (back c) (count c - 1) (buffer c) (prods c) (cons c) (closed c) (won c) in
  if (count c =? size c - 1) && match prods c with [] => false | _ => true end then
    let (w, q) := settle (won c) (prods c) in
    match q with
    | n :: r => (with_prods (buf_insert c (Some (pay n))) w r, [Got (Self o) i v; Put (Queued (isor n)) (who n) (pay n)])
    | [] => (with_prods c w [], [Got (Self o) i v])
    end
  else (c, [Got (Self o) i v]).
(** __prods_handoff, channel.hfa:165-168, on a non-empty queue *)
Definition prods_handoff (o : bool) (c : chan) (w : nat -> bool) (n : node T) (r : list (node T)) (i : nat) : chan * list ev :=
  (with_prods c w r, [Put (Queued (isor n)) (who n) (pay n); Got (Self o) i (Some (pay n))]).
(** The common tail of remove (328-352) and __internal_try_remove (278-292). *)
Definition get_or (o : bool) (c : chan) (i : nat) (empty : chan -> chan * list ev) : chan * list ev :=
  let rest c := if count c =? 0 then empty c else do_remove o c i in
  if size c =? 0 then
    let (w, q) := settle (won c) (prods c) in
    match q with n :: r => prods_handoff o c w n r i | [] => rest (with_prods c w []) end
  else rest c.
Definition block_cons (o : bool) (i : nat) (c : chan) : chan * list ev :=
  (with_cons c (won c) (cons c ++ [N i o tt]), [BlockC o i]).
(** channel.hfa:311-353 *)
Definition remove (c : chan) (i : nat) : chan * list ev :=
  if closed c then (c, [Closed false i]) else get_or false c i (block_cons false i).
(** channel.hfa:272-293 *)
Definition try_remove (c : chan) (i : nat) : chan * list ev := get_or false c i (fail i).
(** channel.hfa:305-309 *)
Definition closed_remove (c : chan) (i : nat) (handled : bool) : chan * list ev :=
  if handled then get_or false c i (fun c => (c, [Throw i])) else (c, [Throw i]).

(** The loops of close, channel.hfa:137-148. *)
Fixpoint drain {A} (w : nat -> bool) (q : list (node A)) : (nat -> bool) * list (node A) :=
  match q with
  | [] => (w, [])
  | n :: r =>
      if isor n then (if w (who n) then drain w r else let (w', l) := drain (setw w (who n)) r in (w', n :: l))
      else let (w', l) := drain w r in (w', n :: l)
  end.
(** channel.hfa:132-150 *)
Definition close (c : chan) : chan * list ev :=
  let (w1, l1) := drain (won c) (cons c) in
  let (w2, l2) := drain w1 (prods c) in
  (C (size c) (front c) (back c) (count c) (buffer c) [] [] true w2,
   map (fun n => ShutC (isor n) (who n)) l1 ++ map (fun n => ShutP (isor n) (who n) (pay n)) l2).
(** channel.hfa:167-173 (no __handle_waituntil_OR here); each hand-off copies elem *)
Definition flush (c : chan) (i : nat) (v : T) : chan * list ev :=
  if count c =? 0 then
    (with_cons c (won c) [], flat_map (fun n => [Put (Self false) i v; Got (Queued (isor n)) (who n) (Some v)]) (cons c))
  else (c, []).

(** register_select$ for a read by an OR waituntil, channel.hfa:411-467, up to a closed_ routine *)
Definition reg_read (c : chan) (i : nat) : chan * list ev :=
  let front_or := match prods c with n :: _ => isor n | [] => false end in
  let pend := negb (closed c) && front_or in
  if pend && won c i then (c, [Lost i])                                   (* 424-427: cannot become pending *)
  else
    let (w, q) := if pend then settle (won c) (prods c) else (won c, prods c) in   (* __handle_pending, 393-407 *)
    let c' := with_prods c w q in
    match pend, q with
    | true, n :: r =>
        if isor n && (who n =? i) then (with_prods c (won c) q, [Hang i])  (* select.hfa:113-128, other == mine *)
        else prods_handoff true c (setw w i) n r i                         (* 429-434: also marks ours *)
    | _, _ =>
        if negb (count c' =? 0) || match q with [] => false | _ => true end || closed c' then
          if won c' i then (c', [Lost i])                                 (* 440-443 *)
          else
            let c' := with_prods c' (setw w i) q in
            if closed c' then (c', [Closed true i]) else get_or true c' i (block_cons true i)
        else get_or true c' i (block_cons true i)
    end.
(** register_select$ for a write by an OR waituntil, channel.hfa:498-560 *)
Definition reg_write (c : chan) (i : nat) (v : T) : chan * list ev :=
  let front_or := match cons c with n :: _ => isor n | [] => false end in
  let pend := negb (closed c) && front_or in
  if pend && won c i then (c, [Lost i])
  else
    let (w, q) := if pend then settle (won c) (cons c) else (won c, cons c) in
    let c' := with_cons c w q in
    match pend, q with
    | true, n :: r =>
        if isor n && (who n =? i) then (with_cons c (won c) q, [Hang i])
        else (with_cons c (setw w i) r, [Put (Self true) i v; Got (Queued (isor n)) (who n) (Some v)])
    | _, _ =>
        if negb (count c' =? size c') || match q with [] => false | _ => true end || closed c' then
          if won c' i then (c', [Lost i])
          else
            let c' := with_cons c' (setw w i) q in
            if closed c' then (c', [Closed true i]) else put_or true c' i v (block_prod true i v)
        else put_or true c' i v (block_prod true i v)
    end.
(** unregister_chan, channel.hfa:379-390, for all clauses of the statement on this channel *)
Definition unreg (c : chan) (i : nat) : chan * list ev :=
  let f {A} (n : node A) := negb (isor n && (who n =? i)) in
  (C (size c) (front c) (back c) (count c) (buffer c) (filter f (prods c)) (filter f (cons c)) (closed c) (won c), []).
(** another clause of waituntil i wins (elsewhere) *)
Definition other_wins (c : chan) (i : nat) : chan * list ev := (with_cons c (setw (won c) i) (cons c), []).

Inductive op :=
  | Insert (i : nat) (v : T) | TryInsert (i : nat) (v : T) | ClosedInsert (i : nat) (res : option T)
  | Remove (i : nat) | TryRemove (i : nat) | ClosedRemove (i : nat) (handled : bool)
  | Close | Flush (i : nat) (v : T)
  | RegRead (i : nat) | RegWrite (i : nat) (v : T) | Unreg (i : nat) | OtherWins (i : nat).
Definition step (c : chan) (o : op) : chan * list ev :=
  match o with
  | Insert i v => insert c i v | TryInsert i v => try_insert c i v | ClosedInsert i r => closed_insert c i r
  | Remove i => remove c i | TryRemove i => try_remove c i | ClosedRemove i h => closed_remove c i h
  | Close => close c | Flush i v => flush c i v
  | RegRead i => reg_read c i | RegWrite i v => reg_write c i v | Unreg i => unreg c i | OtherWins i => other_wins c i
  end.
Fixpoint run (c : chan) (os : list op) : chan * list ev :=
  match os with [] => (c, []) | o :: r => let (c1, l1) := step c o in let (c2, l2) := run c1 r in (c2, l1 ++ l2) end.
End C.
Arguments chan : clear implicits.
Arguments ev : clear implicits.
Arguments op : clear implicits.
