(** libcfa/src/concurrency/kernel/fwd.hfa:126-218: single_sem and oneshot, one transition per atomic instruction, one
    waiting thread, any number of posters; parking and unparking by the ticket operations of [Verif.Park.Model].
    The memory is sequentially consistent (all these operations are __ATOMIC_SEQ_CST; the plain reads are volatile).
    Debug verifications are left out. A post with do_unpark = false leaves the unpark to its caller: here, as in the
    code, the unpark is a later step of the poster. *)
From Coq Require Import ZArith Bool Lia List Arith.
From Verif.Park Require Import Model.
From Verif.OneShot Require Import Spec.
Import ListNotations.
Open Scope nat_scope.

(** The pointer field: 0p, 1p or the waiting thread (fwd.hfa:127-129, 178-186). *)
Inductive cellv := P0 | P1 | PT.
Definition cellv_eqb (a b : cellv) : bool := match a, b with P0, P0 | P1, P1 | PT, PT => true | _, _ => false end.

(** The waiter: outside or at the top of the loop; between the read and the CAS; about to park; parked. *)
Inductive wpc := WIdle | WCas (e : cellv) | WPark | WBlocked.
(** A poster: outside or at the top of the loop; between the read and the CAS; about to unpark the thread it removed. *)
Inductive qpc := QIdle | QCas (e : cellv) | QUnpark.

Record st := S_ { ptr : cellv; tick : Z; w : wpc; q : nat -> qpc; ab : bool; log : list ev }.
(** fwd.hfa:132-134 and 190-192: the constructors; the log is a ghost. *)
Definition init : st := S_ P0 RUNNING WIdle (fun _ => QIdle) false [].

Definition upd (f : nat -> qpc) (p : nat) (x : qpc) : nat -> qpc := fun i => if i =? p then x else f i.

Inductive actor := AW | AQ (p : nat).

(** fwd.hfa:147-148, 205: the waiter parks: kernel.cfa:370-384. *)
Definition do_park (s : st) : st :=
  let (t, r) := park_sub (tick s) in
  match r with
  | Leave => S_ (ptr s) t WBlocked (q s) (ab s) (log s)
  | RunAgain => S_ (ptr s) t WIdle (q s) (ab s) (Wake :: log s)
  | SubAbort => S_ (ptr s) t (w s) (q s) true (log s)
  end.
(** fwd.hfa:168, 216: unpark of the waiter: kernel.cfa:525-540, 556-564. *)
Definition do_unpark (s : st) (p : nat) : st :=
  let (t, r) := unpark_add (tick s) in
  match r with
  | AlreadyAwake => S_ (ptr s) t (w s) (upd (q s) p QIdle) (ab s) (log s)
  | Schedule => S_ (ptr s) t WIdle (upd (q s) p QIdle) (ab s) (Wake :: log s)
  | AddAbort => S_ (ptr s) t (w s) (upd (q s) p QIdle) true (log s)
  end.

(** single_sem: [wait] fwd.hfa:138-155, [post] fwd.hfa:157-174. *)
Definition sem_step (s : st) (a : actor) : option st :=
  match a with
  | AW => match w s with
    | WIdle => Some (S_ (ptr s) (tick s) (WCas (ptr s)) (q s) (ab s) (log s))
    | WCas e =>
        if cellv_eqb (ptr s) e then
          match e with
          | P1 => Some (S_ P0 (tick s) WIdle (q s) (ab s) (Take :: log s))
          | _ => Some (S_ PT (tick s) WPark (q s) (ab s) (Reg :: log s))
          end
        else Some (S_ (ptr s) (tick s) WIdle (q s) (ab s) (log s))
    | WPark => Some (do_park s)
    | WBlocked => None
    end
  | AQ p => match q s p with
    | QIdle => match ptr s with
        | P1 => Some (S_ (ptr s) (tick s) (w s) (q s) (ab s) (Post p false :: log s))
        | e => Some (S_ (ptr s) (tick s) (w s) (upd (q s) p (QCas e)) (ab s) (log s))
        end
    | QCas e =>
        if cellv_eqb (ptr s) e then
          match e with
          | P0 => Some (S_ P1 (tick s) (w s) (upd (q s) p QIdle) (ab s) (Post p false :: log s))
          | _ => Some (S_ P0 (tick s) (w s) (upd (q s) p QUnpark) (ab s) (Post p true :: log s))
          end
        else Some (S_ (ptr s) (tick s) (w s) (upd (q s) p QIdle) (ab s) (log s))
    | QUnpark => Some (do_unpark s p)
    end
  end.

(** oneshot: [wait] fwd.hfa:198-208, [post] fwd.hfa:212-217. *)
Definition one_step (s : st) (a : actor) : option st :=
  match a with
  | AW => match w s with
    | WIdle => match ptr s with
        | P1 => Some (S_ (ptr s) (tick s) WIdle (q s) (ab s) (Take :: log s))
        | e => Some (S_ (ptr s) (tick s) (WCas e) (q s) (ab s) (log s))
        end
    | WCas e =>
        if cellv_eqb (ptr s) e then Some (S_ PT (tick s) WPark (q s) (ab s) (Reg :: log s))
        else Some (S_ (ptr s) (tick s) WIdle (q s) (ab s) (log s))
    | WPark => Some (do_park s)
    | WBlocked => None
    end
  | AQ p => match q s p with
    | QIdle => match ptr s with
        | PT => Some (S_ P1 (tick s) (w s) (upd (q s) p QUnpark) (ab s) (Post p true :: log s))
        | _ => Some (S_ P1 (tick s) (w s) (q s) (ab s) (Post p false :: log s))
        end
    | QCas _ => None
    | QUnpark => Some (do_unpark s p)
    end
  end.

Inductive reach (step : st -> actor -> option st) : st -> Prop :=
| r0 : reach step init
| rS s a s' : reach step s -> step s a = Some s' -> reach step s'.
