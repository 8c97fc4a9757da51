(** future(T): libcfa/src/concurrency/future.hfa:28-220 without the waituntil nodes (57-88; see Select/). Any number of threads call get, try_get, fulfil (a value or an exception) and reset.
    Taking the lock, the code up to releasing it, releasing it, park and the code after it are separate steps. The lock is the futex_mutex of Futex/ seen from outside: lock waits until it is free,
    unlock makes it free whoever holds it; the holder is recorded in lk to be able to say who releases what. *)
From Coq Require Import List Bool Arith.
Import ListNotations.
(** values and exceptions are numbers; None: storage that was never written *)
Inductive op := OGet | OTry | OFul (v : nat) | OExc (e : nat) | OReset.
Inductive pc :=
  | Out | Want (o : op)                     (** before lock( lock ) *)
  | Body (o : op)                           (** holding the lock *)
  | ExcU (e : nat)                          (** 118: exceptCheck, called at 126, about to unlock *)
  | Exc (e : nat)                           (** 119: throwResume from 126 *)
  | GetU (r : option nat)                   (** 128 *)
  | Ins                                     (** 134: about to unlock, listed *)
  | Parked                                  (** 135 *)
  | Check                                   (** 136: after park, about to test except *)
  | ExcU2 (e : nat) | Exc2 (e : nat)        (** 118, 119 called from 136 *)
  | TryU (r : option nat) (b : bool)        (** 163, 166 *)
  | EndU.                                   (** 187, 217 *)
(** what a call hands back *)
Inductive ret := Val (r : option nat) | Raised (e : nat) | Tried (r : option nat) (b : bool).
(** what happened to the future, in the order it happened *)
Inductive ev := EFul (v : nat) | EExc (e : nat) | EReset | EVal (t : nat) (r : option nat) | ERaise (t e : nat) | ETry (t : nat) (r : option nat) (b : bool).
Record state := S { full : bool; result : option nat; except : option nat; lk : option nat; waiters : list nat;
  slot : nat -> option nat; woken : nat -> bool; at_ : nat -> pc; rets : nat -> list ret; hist : list ev; misuse : bool; aborted : bool }.
Definition upd {X} (f : nat -> X) (i : nat) (x : X) : nat -> X := fun j => if j =? i then x else f j.
Definition goto (s : state) (t : nat) (p : pc) : state :=
  S (full s) (result s) (except s) (lk s) (waiters s) (slot s) (woken s) (upd (at_ s) t p) (rets s) (hist s) (misuse s) (aborted s).
Definition log (s : state) (l : list ev) : state :=
  S (full s) (result s) (except s) (lk s) (waiters s) (slot s) (woken s) (at_ s) (rets s) (hist s ++ l) (misuse s) (aborted s).
Definition return_ (s : state) (t : nat) (r : list ret) : state :=
  S (full s) (result s) (except s) (lk s) (waiters s) (slot s) (woken s) (upd (at_ s) t Out) (upd (rets s) t (rets s t ++ r)) (hist s) (misuse s) (aborted s).
Definition set_lk (s : state) (o : option nat) (m : bool) : state :=
  S (full s) (result s) (except s) o (waiters s) (slot s) (woken s) (at_ s) (rets s) (hist s) m (aborted s).
(** unlock: misuse records that somebody released a lock that he did not hold *)
Definition unlock (s : state) (t : nat) : state :=
  set_lk s None (misuse s || negb (match lk s with Some u => u =? t | None => false end)).
Definition abort (s : state) : state :=
  S (full s) (result s) (except s) (lk s) (waiters s) (slot s) (woken s) (at_ s) (rets s) (hist s) (misuse s) true.
(** 132-133 *)
Definition insert (s : state) (t : nat) : state :=
  S (full s) (result s) (except s) (lk s) (waiters s ++ [t]) (upd (slot s) t None) (upd (woken s) t false) (at_ s) (rets s) (hist s) (misuse s) (aborted s).
Definition memb (l : list nat) (t : nat) : bool := existsb (Nat.eqb t) l.
(** fulfil$, 174-186: every waiter gets a copy of the result and is woken *)
Definition fulfil (s : state) (r e : option nat) : state :=
  S true r e (lk s) [] (fun t => if memb (waiters s) t then r else slot s t) (fun t => if memb (waiters s) t then true else woken s t)
    (at_ s) (rets s) (hist s) (misuse s) (aborted s).
(** 214-216 *)
Definition clear (s : state) : state :=
  S false (result s) None (lk s) (waiters s) (slot s) (woken s) (at_ s) (rets s) (hist s) (misuse s) (aborted s).
(** Resume: the handler of the resumption returned, so throwResume does; Unwind: it did not (a terminating handler took over) *)
Inductive act := Start (o : op) | Go | Resume | Unwind.
Definition step (s : state) (t : nat) (a : act) : option state :=
  if aborted s then None else
  match at_ s t, a with
  | Out, Start o => Some (goto s t (Want o))
  | Want o, Go => match lk s with None => Some (goto (set_lk s (Some t) (misuse s)) t (Body o)) | Some _ => None end
  | Body OGet, Go =>                                     (** 113-138 *)
      if full s then match except s with
                     | Some e => Some (goto (log s [ERaise t e]) t (ExcU e))
                     | None => Some (goto (log s [EVal t (result s)]) t (GetU (result s)))
                     end
      else Some (goto (insert s t) t Ins)
  | ExcU e, Go => Some (goto (unlock s t) t (Exc e))
  | Exc e, Unwind => Some (return_ s t [Raised e])
  | Exc e, Resume => Some (goto s t (GetU (result s)))   (** 127 *)
  | GetU r, Go => Some (return_ (unlock s t) t [Val r])
  | Ins, Go => Some (goto (unlock s t) t Parked)
  | Parked, Go => if woken s t then Some (goto s t Check) else None
  | Check, Go => match except s with
                 | Some e => Some (goto s t (ExcU2 e))
                 | None => Some (return_ s t [Val (slot s t)])
                 end
  | ExcU2 e, Go => Some (goto (unlock s t) t (Exc2 e))
  | Exc2 e, Unwind => Some (return_ s t [Raised e])
  | Exc2 e, Resume => Some (return_ s t [Val (slot s t)])
  | Body OTry, Go => if full s then Some (goto (log s [ETry t (result s) true]) t (TryU (result s) true))   (** 158-168 *)
                     else Some (goto (log s [ETry t None false]) t (TryU None false))
  | TryU r b, Go => Some (return_ (unlock s t) t [Tried r b])
  | Body (OFul v), Go => if full s then Some (abort s)   (** 194-199 *)
                         else Some (goto (log (fulfil s (Some v) (except s)) (EFul v :: map (fun u => EVal u (Some v)) (waiters s))) t EndU)
  | Body (OExc e), Go => if full s then Some (abort s)   (** 202-208; waiters will raise when they run *)
                         else Some (goto (log (fulfil s (result s) (Some e)) (EExc e :: map (fun u => ERaise u e) (waiters s))) t EndU)
  | Body OReset, Go => match waiters s with [] => Some (goto (log (clear s) [EReset]) t EndU) | _ => Some (abort s) end   (** 211-218 *)
  | EndU, Go => Some (return_ (unlock s t) t [])
  | _, _ => None
  end.
Definition start : state := S false None None None [] (fun _ => None) (fun _ => false) (fun _ => Out) (fun _ => []) [] false false.
Fixpoint run (s : state) (l : list (nat * act)) : option state :=
  match l with [] => Some s | (t, a) :: l => match step s t a with Some s1 => run s1 l | None => None end end.
