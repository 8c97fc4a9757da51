(** libcfa/src/concurrency/kernel/fwd.hfa:220-381: future_t, one transition per atomic instruction, sequentially consistent
    memory. One client thread (fwd.hfa:224 "does not support multiple threads waiting on the same future") and one
    server, which fulfils once per reset. The post of the wait context is one step (its atomicity: [Verif.OneShot]);
    waiting on the context is a step that is enabled once it is posted. Debug verifications are left out unless said. *)
From Coq Require Import List Bool Arith.
From Verif.KFuture Require Import Spec.
Import ListNotations.

(** fwd.hfa:225: future_ARMED, future_FULFILLED, future_PROGRESS, future_ABANDONED, or the address of a oneshot (here a
    number; addresses may be used again). *)
Inductive pv := Armed | Fulfilled | Progress | Abandoned | Ctx (k : nat).
Definition pv_eqb (a b : pv) : bool :=
  match a, b with
  | Armed, Armed | Fulfilled, Fulfilled | Progress, Progress | Abandoned, Abandoned => true
  | Ctx j, Ctx k => j =? k
  | _, _ => false
  end.

(** The server, in [fulfil] (fwd.hfa:329-360): at the top of the loop; between read and CAS; about to post; about to store. *)
Inductive spc := SIdle | SCas (e : pv) | SPost (k : nat) | SStore | SDone.
(** The client: not registered; in [setup] between read and CAS; registered; spinning in [retract]; spinning at the end
    of [wait]; spinning in [abandon]; has given the future up. *)
Inductive cpc := CIdle | CSet (k : nat) (e : pv) | CReg (k : nat) | CSpin (k : nat) | CWSpin (k : nat) | CASpin | CGone.

Record st := S_ {
  ptr : pv;
  sv : spc;
  cl : cpc;
  os : nat -> bool;     (* which contexts have been posted since constructed *)
  freed : nat;          (* calls of free on the future *)
  bad : bool;           (* use after free, post to a dead context, unexpected state (abort or failed verify) *)
  log : list ev         (* ghost *)
}.
(** fwd.hfa:239-241. *)
Definition init : st := S_ Armed SIdle CIdle (fun _ => false) 0 false [].

Definition alive (c : cpc) (k : nat) : bool :=
  match c with CReg j | CSpin j | CWSpin j | CSet j _ => j =? k | _ => false end.
Definition setb (f : nat -> bool) (k : nat) (b : bool) : nat -> bool := fun i => if i =? k then b else f i.
(** every access to the future's word after it was freed is an error *)
Definition touch (s : st) : bool := bad s || negb (freed s =? 0).

Inductive actor := ASetup (k : nat) | ARetract | AWaited | AAbandon | AReset | AClient | AServer.

(** [loose]: whether the client may abandon a future while it is still registered with it. *)
Definition step (loose : bool) (s : st) (a : actor) : option st :=
  match a with
  (* setup fwd.hfa:258-272, read *)
  | ASetup k => match cl s with
      | CIdle => match ptr s with
          | Fulfilled => Some (S_ (ptr s) (sv s) CIdle (os s) (freed s) (touch s) (log s))
          | e => Some (S_ (ptr s) (sv s) (CSet k e) (setb (os s) k false) (freed s) (touch s) (log s))
          end
      | _ => None
      end
  (* retract fwd.hfa:279-308 *)
  | ARetract => match cl s with
      | CReg k =>
          if pv_eqb (ptr s) (Ctx k) then Some (S_ Armed (sv s) CIdle (os s) (freed s) (touch s) (ERetract k false :: log s))
          else match ptr s with
          | Armed => Some (S_ (ptr s) (sv s) CIdle (os s) (freed s) (touch s) (ERetract k false :: log s))
          | Fulfilled => Some (S_ (ptr s) (sv s) CIdle (os s) (freed s) (touch s) (ERetract k true :: log s))
          | Progress => Some (S_ (ptr s) (sv s) (CSpin k) (os s) (freed s) (touch s) (log s))
          | _ => Some (S_ (ptr s) (sv s) CIdle (os s) (freed s) true (log s))
          end
      | _ => None
      end
  (* wait fwd.hfa:363-381: the context was posted *)
  | AWaited => match cl s with
      | CReg k => if os s k then Some (S_ (ptr s) (sv s) (CWSpin k) (os s) (freed s) (bad s) (log s)) else None
      | _ => None
      end
  (* abandon fwd.hfa:311-328 *)
  | AAbandon =>
      let go := match ptr s with
        | Armed => Some (S_ Abandoned (sv s) CGone (os s) (freed s) (touch s) (log s))
        | Progress => Some (S_ Abandoned (sv s) CASpin (os s) (freed s) (touch s) (log s))
        | _ => Some (S_ Abandoned (sv s) CGone (os s) (S (freed s)) (touch s) (log s))
        end in
      match cl s with
      | CIdle => go
      | CReg _ => if loose then go else None
      | _ => None
      end
  (* reset fwd.hfa:245-248, "needs to be in 0p or 1p"; a new fulfilment may follow *)
  | AReset => match cl s, sv s with
      | CIdle, SDone => Some (S_ Armed SIdle CIdle (os s) (freed s) (touch s) (log s))
      | _, _ => None
      end
  | AClient => match cl s with
      (* setup: CAS *)
      | CSet k e =>
          if pv_eqb (ptr s) e then Some (S_ (Ctx k) (sv s) (CReg k) (os s) (freed s) (touch s) (EReg k :: log s))
          else Some (S_ (ptr s) (sv s) CIdle (os s) (freed s) (touch s) (log s))
      (* retract: fwd.hfa:299-303 *)
      | CSpin k => match ptr s with
          | Fulfilled => Some (S_ (ptr s) (sv s) CIdle (os s) (freed s) (touch s) (ERetract k true :: log s))
          | _ => Some (S_ (ptr s) (sv s) (CSpin k) (os s) (freed s) (touch s) (log s))
          end
      (* wait: fwd.hfa:370-380; with the verification that the word is FULFILLED *)
      | CWSpin k => match ptr s with
          | Progress => Some (S_ (ptr s) (sv s) (CWSpin k) (os s) (freed s) (touch s) (log s))
          | Fulfilled => Some (S_ (ptr s) (sv s) CIdle (os s) (freed s) (touch s) (EWaited k :: log s))
          | _ => Some (S_ (ptr s) (sv s) CIdle (os s) (freed s) true (log s))
          end
      (* abandon: fwd.hfa:319-327 *)
      | CASpin => match ptr s with
          | Fulfilled => Some (S_ (ptr s) (sv s) CGone (os s) (S (freed s)) (touch s) (log s))
          | _ => Some (S_ (ptr s) (sv s) CASpin (os s) (freed s) (touch s) (log s))
          end
      | _ => None
      end
  (* fulfil fwd.hfa:329-360 *)
  | AServer => match sv s with
      | SIdle => match ptr s with
          | Abandoned => Some (S_ (ptr s) SDone (cl s) (os s) (S (freed s)) (touch s) (log s))
          | e => Some (S_ (ptr s) (SCas e) (cl s) (os s) (freed s) (touch s) (log s))
          end
      | SCas e =>
          if pv_eqb (ptr s) e then
            match e with
            | Armed => Some (S_ Fulfilled SDone (cl s) (os s) (freed s) (touch s) (log s))
            | Ctx k => Some (S_ Progress (SPost k) (cl s) (os s) (freed s) (touch s) (log s))
            | _ => Some (S_ Progress SDone (cl s) (os s) (freed s) true (log s))
            end
          else Some (S_ (ptr s) SIdle (cl s) (os s) (freed s) (touch s) (log s))
      | SPost k => Some (S_ (ptr s) SStore (cl s) (setb (os s) k true) (freed s) (bad s || negb (alive (cl s) k)) (EPost k :: log s))
      | SStore => Some (S_ Fulfilled SDone (cl s) (os s) (freed s) (touch s) (log s))
      | SDone => None
      end
  end.

Inductive reach (loose : bool) : st -> Prop :=
| r0 : reach loose init
| rS s a s' : reach loose s -> step loose s a = Some s' -> reach loose s'.
