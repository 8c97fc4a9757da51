(** mutex_lock, recursive_mutex_lock and cond_lock: libcfa/src/concurrency/mutex.cfa:29-175. The sections under the spin lock of an object are atomic steps, except that the one of wait, which takes a
    second lock inside, is split (the spin lock of the condition is a field). One lock, of either kind, and one condition are shared by any number of threads. park and unpark
    (kernel.cfa:371-384, 525-564) are a permit for each thread: unpark gives it and aborts when it is there already, park waits for it and takes it; unpark(0p) does nothing (557).
    The phase of a thread is its program counter, with the number of times it holds the lock; threads call unlock only when they hold the lock, and do not lock a held mutex_lock again. *)
From Coq Require Import ZArith List Bool Arith.
Import ListNotations.
Definition W : Z := (2 ^ 64)%Z.
(** mutex_lock: is_locked (mutex.hfa:41); recursive_mutex_lock: owner and recursion_count (60-63) *)
Inductive lockst := M (is_locked : bool) | R (owner : option nat) (count : Z).
Inductive phase :=
| Out (** does not hold the lock *)
| In (d : nat) (** holds it d times *)
| Wl (** appended to the lock's queue, in park *)
| Wa (d : nat) (** in wait(c, l), after the append: before unlock(l) *)
| Wb (d : nat) (** after unlock(l): before unlock(c.lock) *)
| Wc (d : nat) (** in park *)
| Wd (d : nat) (** before lock(l) *)
| Wp. (** in wait(c), in park *)
Record sys := Sys { lk : lockst; lq : list nat; cq : list nat; cl : option nat; ph : nat -> phase; tok : nat -> nat;
  arr : list nat; gra : list nat; carr : list nat; cgra : list nat (** history: arrivals and grants at the lock and the condition *) }.
Inductive out := Off | Abort | Next (s : sys).
Definition upd {A} (f : nat -> A) (t : nat) (a : A) : nat -> A := fun x => if x =? t then a else f x.
Definition init (l : lockst) : sys := Sys l [] [] None (fun _ => Out) (fun _ => O) [] [] [] [].
(** the constructors, 29-33 and 74-79 *)
Definition new_mutex : lockst := M false.
Definition new_recursive : lockst := R None 0.
(** __must_unpark, kernel.cfa:525-539 *)
Definition unpark (o : option nat) (tok : nat -> nat) : option (nat -> nat) :=
  match o with None => Some tok | Some t => if tok t =? 0 then Some (upd tok t 1) else None end.
(** the condition of lock, 41, 87, 92: acquired, or to be queued *)
Definition acquire (t : nat) (l : lockst) : option lockst :=
  match l with
  | M false => Some (M true)
  | M true => None
  | R None _ => Some (R (Some t) 1)
  | R (Some o) c => if o =? t then Some (R (Some o) ((c + 1) mod W)%Z) else None
  end.
(** unlock, 63-70 and 119-130: the lock, the queue, the thread to unpark *)
Definition release (l : lockst) (q : list nat) : lockst * list nat * option nat :=
  match l with
  | M _ => (M (match q with [] => false | _ => true end), tl q, hd_error q)
  | R o c =>
    let c := ((c - 1) mod W)%Z in
    if (c =? 0)%Z then (R (hd_error q) (match hd_error q with Some _ => 1 | None => 0 end), tl q, hd_error q) else (R o c, q, None)
  end.
Definition list_of (o : option nat) : list nat := match o with Some t => [t] | None => [] end.
(** lock, 39-50 and 85-101; d: how often t holds it already *)
Definition do_lock (t d : nat) (s : sys) : out :=
  let first := if d =? 0 then [t] else [] in
  match acquire t (lk s) with
  | Some l => Next (Sys l (lq s) (cq s) (cl s) (upd (ph s) t (In (S d))) (tok s) (arr s ++ first) (gra s ++ first) (carr s) (cgra s))
  | None => Next (Sys (lk s) (lq s ++ [t]) (cq s) (cl s) (upd (ph s) t Wl) (tok s) (arr s ++ first) (gra s) (carr s) (cgra s))
  end.
(** try_lock, 52-61 and 103-117 *)
Definition do_try (t d : nat) (s : sys) : out :=
  match acquire t (lk s) with Some _ => do_lock t d s | None => Next s end.
(** unlock, after which the phase of t is p *)
Definition do_unlock (t : nat) (p : phase) (s : sys) : out :=
  let '(l, q, w) := release (lk s) (lq s) in
  match unpark w (tok s) with
  | Some k => Next (Sys l q (cq s) (cl s) (upd (ph s) t p) k (arr s) (gra s ++ list_of w) (carr s) (cgra s))
  | None => Abort
  end.
Definition held (d : nat) : phase := match d with O => Out | S d => In (S d) end.
(** park returns *)
Definition do_park (t : nat) (s : sys) : out :=
  let go p := Next (Sys (lk s) (lq s) (cq s) (cl s) (upd (ph s) t p) (upd (tok s) t (tok s t - 1)) (arr s) (gra s) (carr s) (cgra s)) in
  if tok s t =? 0 then Off else
  match ph s t with Wl => go (In 1) | Wc d => go (Wd d) | Wp => go Out | _ => Off end.
(** notify_one, 141-147 *)
Definition do_one (s : sys) : out :=
  match cl s with
  | Some _ => Off
  | None => match unpark (hd_error (cq s)) (tok s) with
            | Some k => Next (Sys (lk s) (lq s) (tl (cq s)) (cl s) (ph s) k (arr s) (gra s) (carr s) (cgra s ++ list_of (hd_error (cq s))))
            | None => Abort
            end
  end.
(** notify_all, 149-157 *)
Fixpoint unpark_all (l : list nat) (tok : nat -> nat) : option (nat -> nat) :=
  match l with [] => Some tok | t :: l => match unpark (Some t) tok with Some k => unpark_all l k | None => None end end.
Definition do_all (s : sys) : out :=
  match cl s with
  | Some _ => Off
  | None => match unpark_all (cq s) (tok s) with
            | Some k => Next (Sys (lk s) (lq s) [] (cl s) (ph s) k (arr s) (gra s) (carr s) (cgra s ++ cq s))
            | None => Abort
            end
  end.
(** the first section of wait, 160-161 and 168-169 *)
Definition do_append (t : nat) (hold : option nat) (p : phase) (s : sys) : out :=
  match cl s with
  | Some _ => Off
  | None => Next (Sys (lk s) (lq s) (cq s ++ [t]) hold (upd (ph s) t p) (tok s) (arr s) (gra s) (carr s ++ [t]) (cgra s))
  end.
Inductive ev := Lock (t : nat) | Try (t : nat) | Unlock (t : nat) | Park (t : nat) | Wait (t : nat) | Wait_unlock (t : nat) | Wait_release (t : nat) | Wait_lock (t : nat) | Wait0 (t : nat)
  | Notify_one | Notify_all.
(** a thread at depth d may lock again: not a mutex_lock, and within the range of recursion_count *)
Definition again (l : lockst) (d : nat) : bool := match l with M _ => false | R _ _ => (Z.of_nat (S d) <? W)%Z end.
Definition step (e : ev) (s : sys) : out :=
  match e with
  | Lock t => match ph s t with Out => do_lock t 0 s | In d => if again (lk s) d then do_lock t d s else Off | _ => Off end
  | Try t => match ph s t with Out => do_try t 0 s | In d => match lk s with M _ => do_try t d s | _ => if again (lk s) d then do_try t d s else Off end | _ => Off end
  | Unlock t => match ph s t with In d => do_unlock t (held (pred d)) s | _ => Off end
  | Park t => do_park t s
  | Wait t => match ph s t with In d => do_append t (Some t) (Wa d) s | _ => Off end
  | Wait_unlock t => match ph s t with Wa d => do_unlock t (Wb (pred d)) s | _ => Off end
  | Wait_release t => match ph s t with Wb d => Next (Sys (lk s) (lq s) (cq s) None (upd (ph s) t (Wc d)) (tok s) (arr s) (gra s) (carr s) (cgra s)) | _ => Off end
  | Wait_lock t => match ph s t with Wd d => do_lock t d s | _ => Off end
  | Wait0 t => match ph s t with Out => do_append t None Wp s | _ => Off end
  | Notify_one => do_one s
  | Notify_all => do_all s
  end.
