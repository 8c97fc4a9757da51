(** The ready queue of a cluster: libcfa/src/concurrency/ready_subqueue.hfa (the lanes), ready_queue.cfa (choice of the lane, popping, searching)
    and kernel/cluster.cfa (growing and shrinking). Each operation is atomic: a lane is changed under its lock, the array of lanes under the writer side of
    the scheduler lock. The debug checks (verify) on links and time stamps are kept, as the outcome Check. Random numbers, time stamps, the place and
    the old contents of reallocated memory are arguments. Not modelled: statistics, the averages that decide whether to help, caches. *)
From Coq Require Import ZArith List Bool.
Import ListNotations.
Open Scope Z_scope.
Definition MAX : Z := 2 ^ 64 - 1.
(** __thread_desc_link, invoke.h:165-168 *)
Record link := L { next : option nat; ts : Z }.
(** a thread$ *: a thread, or the mock head of lane i in the array at b (ready_subqueue.hfa:25-30) *)
Inductive ptr := T (t : nat) | A (b i : nat).
Definition eqp (p q : ptr) : bool :=
  match p, q with T a, T b => (a =? b)%nat | A a i, A b j => (a =? b)%nat && (i =? j)%nat | _, _ => false end.
(** the array readyQ.data at address base with room for cap lanes: lane i has the fields anchor i and prev i; count is readyQ.count, total is procs.total *)
Record queue := Q { base : nat; cap : nat; count : nat; total : nat; anchor : nat -> link; prev : nat -> ptr; rdy : nat -> link; pref : nat -> Z }.
(** Fault: memory outside the array or a null pointer; Check: a debug check fails; Short: the list of random numbers is too short; Bad: call outside the rules *)
Inductive res (X : Type) := Ok (x : X) | Fault | Check | Short | Bad.
Arguments Ok {X} x. Arguments Fault {X}. Arguments Check {X}. Arguments Short {X}. Arguments Bad {X}.
Definition bind {X Y} (r : res X) (f : X -> res Y) : res Y :=
  match r with Ok x => f x | Fault => Fault | Check => Check | Short => Short | Bad => Bad end.
Definition upd {X} (f : nat -> X) (i : nat) (x : X) : nat -> X := fun j => if (j =? i)%nat then x else f j.
Definition deref (q : queue) (p : ptr) : res link :=
  match p with T t => Ok (rdy q t) | A b i => if (b =? base q)%nat && (i <? cap q)%nat then Ok (anchor q i) else Fault end.
Definition assign (q : queue) (p : ptr) (l : link) : queue :=
  match p with
  | T t => Q (base q) (cap q) (count q) (total q) (anchor q) (prev q) (upd (rdy q) t l) (pref q)
  | A b i => Q (base q) (cap q) (count q) (total q) (upd (anchor q) i l) (prev q) (rdy q) (pref q)
  end.
Definition set_prev (q : queue) (i : nat) (p : ptr) : queue := Q (base q) (cap q) (count q) (total q) (anchor q) (upd (prev q) i p) (rdy q) (pref q).
Definition set_pref (q : queue) (t : nat) (w : Z) : queue := Q (base q) (cap q) (count q) (total q) (anchor q) (prev q) (rdy q) (upd (pref q) t w).
Definition set_count (q : queue) (n m : nat) : queue := Q (base q) (cap q) n m (anchor q) (prev q) (rdy q) (pref q).
Definition clear (l : link) : bool := match next l with None => ts l =? MAX | Some _ => false end.
Definition is_empty (q : queue) (i : nat) : bool := match next (anchor q i) with None => true | Some _ => false end.
(** push on a lane, ready_subqueue.hfa:34-61 *)
Definition push (q : queue) (i t : nat) (now : Z) : res queue :=
  if negb (i <? cap q)%nat then Fault
  else bind (deref q (prev q i)) (fun p =>
    if negb (clear (rdy q t)) then Check
    else if negb (clear p) then Check
    else if (if is_empty q i then negb (ts (anchor q i) =? MAX) || negb (eqp (prev q i) (A (base q) i))
             else (ts (anchor q i) =? MAX) || (ts (anchor q i) =? 0) || eqp (prev q i) (A (base q) i)) then Check
    else Ok (set_prev (assign q (prev q i) (L (Some t) now)) i (T t))).
(** pop from a lane, 66-97 *)
Definition pop (q : queue) (i : nat) : res (queue * nat * Z) :=
  if negb (i <? cap q)%nat then Fault
  else match next (anchor q i) with
  | None => Fault
  | Some t =>
      if (ts (anchor q i) =? MAX) || (ts (anchor q i) =? 0) then Check
      else
        let a := rdy q t in
        let q1 := assign (assign q (A (base q) i) a) (T t) (L None MAX) in
        let e := is_empty q1 i in
        let q2 := if e then set_prev q1 i (A (base q) i) else q1 in
        if (ts (anchor q2 i) =? 0) || negb (Bool.eqb (ts (anchor q2 i) =? MAX) e) then Check else Ok (q2, t, ts (anchor q2 i))
  end.
(** the lane for a thread, ready_queue.cfa:71-95. r is a random number; the rest is tried until a lane is free *)
Definition u32 (x : Z) : Z := x mod 2 ^ 32.
Definition choose_remote (n : nat) (p r : Z) : nat :=
  let start := u32 (p * 2) in
  if start <? Z.of_nat n then Z.to_nat (start + r mod 2) else Z.to_nat (r mod Z.of_nat n).
(** rdq.id of processor p is 2 * p, cluster.cfa:235-256 *)
Definition choose_local (p : nat) (its : Z) : nat := (2 * p + Z.to_nat (its mod 2))%nat.
(** try_pop, ready_queue.cfa:176-221 *)
Definition try_pop (q : queue) (w : nat) : res (queue * option nat) :=
  if negb (w <? count q)%nat then Fault
  else if is_empty q w then Ok (q, None)
  else bind (pop q w) (fun '(q1, t, _) => Ok (set_pref q1 t (Z.of_nat w / 2), Some t)).
(** pop_fast, 109-159, for processor p: help is the lane it decides to help, if any; then its own two lanes *)
Definition pop_fast (q : queue) (p : nat) (itr : Z) (help : option nat) : res (queue * option nat) :=
  bind (match help with Some w => if (w <? count q)%nat then try_pop q w else Ok (q, None) | None => Ok (q, None) end) (fun '(q1, r) =>
  match r with
  | Some _ => Ok (q1, r)
  | None => bind (try_pop q1 (choose_local p itr)) (fun '(q2, r2) =>
      match r2 with Some _ => Ok (q2, r2) | None => try_pop q2 (choose_local p (u32 (itr + 1))) end)
  end).
(** search, 226-241: unsigned arithmetic on the index *)
Definition lane_at (off : Z) (n i : nat) : nat := Z.to_nat (u32 (off + Z.of_nat i) mod Z.of_nat n).
Fixpoint search (q : queue) (off : Z) (i k : nat) : res (queue * option nat) :=
  match k with
  | O => Ok (q, None)
  | S k => bind (try_pop q (lane_at off (count q) i)) (fun '(q1, r) => match r with Some _ => Ok (q1, r) | None => search q1 off (S i) k end)
  end.
(** realloc of the array to n lanes at nb; the new lanes hold whatever was there. fix, cluster.cfa:228-233; the constructor, 452-459 *)
Record place := P { at_ : nat; junk : nat -> link; stray : nat -> ptr }.
Definition realloc (q : queue) (n : nat) (pl : place) : queue :=
  let m := Nat.min n (cap q) in
  Q (at_ pl) n (count q) (total q) (fun i => if (i <? m)%nat then anchor q i else junk pl i) (fun i => if (i <? m)%nat then prev q i else stray pl i) (rdy q) (pref q).
Definition fix1 (q : queue) (i : nat) : res queue :=
  if negb (i <? cap q)%nat then Fault else Ok (if is_empty q i then set_prev q i (A (base q) i) else q).
Definition init1 (q : queue) (i : nat) : res queue :=
  if negb (i <? cap q)%nat then Fault else Ok (assign (set_prev q i (A (base q) i)) (A (base q) i) (L None MAX)).
(** for( idx; i ~ i + k ) *)
Fixpoint loop (f : queue -> nat -> res queue) (q : queue) (i k : nat) : res queue :=
  match k with O => Ok q | S k => bind (f q i) (fun q1 => loop f q1 (S i) k) end.
Definition lanes (n : nat) : nat := Nat.max (2 * n) 2.
(** ready_queue_grow, cluster.cfa:286-348; n is the number of processors *)
Definition grow (q : queue) (n : nat) (pl : place) : res queue :=
  let o := count q in
  let c := lanes n in
  if (o =? c)%nat then Ok (set_count q o n)
  else bind (loop fix1 (realloc q c pl) 0 o) (fun q1 => bind (loop init1 q1 o (c - o)) (fun q2 => Ok (set_count q2 c n))).
(** ready_queue_shrink, 351-436: the loop 385-396, with a random number and a time stamp for each push *)
Fixpoint drain (q : queue) (i : nat) (ms : list (Z * Z)) : res (queue * list (Z * Z)) :=
  if is_empty q i then Ok (q, ms)
  else match ms with
  | [] => Short
  | (r, now) :: ms => bind (pop q i) (fun '(q1, t, _) =>
      let c := choose_remote (count q1) (pref q1 t) r in
      if negb (c <? count q1)%nat then Fault else bind (push q1 c t now) (fun q2 => drain q2 i ms))
  end.
Fixpoint drains (q : queue) (i k : nat) (ms : list (Z * Z)) : res queue :=
  match k with O => Ok q | S k => bind (drain q i ms) (fun '(q1, ms1) => drains q1 (S i) k ms1) end.
Definition shrink (q : queue) (n : nat) (pl : place) (ms : list (Z * Z)) : res queue :=
  let o := count q in
  let c := lanes n in
  if (o <? c)%nat then Bad
  else bind (drains (set_count q c n) c (o - c) ms) (fun q1 => loop fix1 (realloc q1 c pl) 0 c).
Inductive op :=
  | PushRemote (t : nat) (r now : Z) | PushLocal (p : nat) (its : Z) (t : nat) (now : Z)
  | TryPop (w : nat) | PopFast (p : nat) (itr : Z) (help : option nat) | Search (off : Z)
  | Grow (n : nat) (pl : place) | Shrink (n : nat) (pl : place) (ms : list (Z * Z)).
Definition step (q : queue) (o : op) : res (queue * option nat) :=
  match o with
  | PushRemote t r now => let c := choose_remote (count q) (pref q t) r in
      if negb (c <? count q)%nat then Fault else bind (push q c t now) (fun q1 => Ok (q1, None))
  | PushLocal p its t now => if (p <? total q)%nat then let c := choose_local p its in
      if negb (c <? count q)%nat then Fault else bind (push q c t now) (fun q1 => Ok (q1, None)) else Bad
  | TryPop w => if (w <? count q)%nat then try_pop q w else Bad
  | PopFast p itr help => if (p <? total q)%nat then pop_fast q p itr help else Bad
  | Search off => search q off 0 (count q)
  | Grow n pl => if (n <? total q)%nat then Bad else bind (grow q n pl) (fun q1 => Ok (q1, None))
  | Shrink n pl ms => if (total q <? n)%nat then Bad else bind (shrink q n pl ms) (fun q1 => Ok (q1, None))
  end.
(** n operations of a program that chooses each by the results so far (latest first) *)
Fixpoint run (p : list (option nat) -> option op) (q : queue) (h : list (option nat)) (n : nat) : res (queue * list (op * option nat)) :=
  match n with
  | O => Ok (q, [])
  | S n => match p h with
      | None => Ok (q, [])
      | Some o => bind (step q o) (fun '(q1, x) => bind (run p q1 (x :: h) n) (fun '(q2, l) => Ok (q2, (o, x) :: l)))
      end
  end.
(** a cluster before its first grow; the threads' links are clear *)
Definition start (prefs : nat -> Z) : queue := Q 0 0 0 0 (fun _ => L None MAX) (fun _ => A 0 0) (fun _ => L None MAX) prefs.
