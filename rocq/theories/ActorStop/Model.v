(* How the actor system starts and stops: /repo/libcfa/src/concurrency/actor.hfa,
   lines 400-440 (counting the actors), 481-490 (after a message was received)
   and 679-709 (actor_start, actor_stop).

   One step is one atomic action; the executor thread, which calls actor_start
   and actor_stop, and the workers take steps in any order.  Parking is that of
   kernel.cfa (see Park/).

   Simplifications: which worker runs an actor, and the messages, are in Actor/;
   here a live actor may at any time create another one or terminate, and it is
   live until the count is decremented.  The count is a natural number. *)

From Coq Require Import List Arith ZArith Bool.
From Verif.Park Require Import Model.
Import ListNotations.
Open Scope nat_scope.

(* Where the executor thread is. *)
Inductive at_ :=
| Idle                                           (* before actor_start *)
| Out                                            (* between actor_start and actor_stop *)
| Switch                                         (* 702: in park, the ticket not yet decremented *)
| Parked
| Ready                                          (* made ready by unpark *)
| Back                                           (* 704: park returned *)
| Wrong.                                         (* mismatch in park or unpark: abort *)

Record st := St {
  live : list nat;                               (* the actors that have not terminated *)
  next : nat;                                    (* their names *)
  count : nat;                                   (* __num_actors_ *)
  owed : nat;                                    (* workers between 436 and 437 *)
  ticket : Z;                                    (* of the executor thread *)
  main : at_;
  thd : bool;                                    (* __actor_executor_thd != 0p *)
  fresh : bool                                   (* history: no actor created since actor_start *)
}.

Definition init : st := St [] 0 0 0 RUNNING Idle false true.

Inductive ev :=
| Start                                          (* actor_start: 679-697 *)
| Create                                         (* the executor thread creates an actor: 412-422 *)
| Child (a : nat)                                (* actor a creates one while it receives *)
| Term (a : nat)                                 (* a's receive returned Delete, Destroy or Finished: 424-436 *)
| Unpark                                         (* 437 *)
| Stop                                           (* actor_stop: 702 *)
| Kernel                                         (* kernel.cfa:370-384 *)
| Resume                                         (* the executor thread runs again *)
| Finish.                                        (* 704-708 *)

Definition with_main (s : st) (m : at_) : st := St (live s) (next s) (count s) (owed s) (ticket s) m (thd s) (fresh s).

(* actor.hfa:412-422 *)
Definition create (s : st) : st := St (next s :: live s) (S (next s)) (S (count s)) (owed s) (ticket s) (main s) (thd s) false.

(* kernel.cfa:556-564 *)
Definition unpark (s : st) : st :=
  if thd s
  then let (t, r) := unpark_add (ticket s) in
       St (live s) (next s) (count s) (owed s) t
          (match r with AlreadyAwake => main s | Schedule => Ready | AddAbort => Wrong end) (thd s) (fresh s)
  else s.

Definition step (s : st) (e : ev) : option st :=
  match e, main s with
  | _, Wrong => None
  | Start, Idle => Some (St (live s) (next s) (count s) (owed s) (ticket s) Out true true)
  | Create, Out => Some (create s)
  | Child a, _ => if existsb (Nat.eqb a) (live s) then Some (create s) else None
  | Term a, _ =>
      if existsb (Nat.eqb a) (live s)
      then Some (St (remove Nat.eq_dec a (live s)) (next s) (count s - 1)
                    (if count s - 1 =? 0 then S (owed s) else owed s) (ticket s) (main s) (thd s) (fresh s))
      else None
  | Unpark, _ =>
      match owed s with
      | O => None
      | S n => Some (unpark (St (live s) (next s) (count s) n (ticket s) (main s) (thd s) (fresh s)))
      end
  | Stop, Out => Some (with_main s Switch)
  | Kernel, Switch =>
      let (t, r) := park_sub (ticket s) in
      Some (St (live s) (next s) (count s) (owed s) t (match r with Leave => Parked | RunAgain => Back | SubAbort => Wrong end) (thd s) (fresh s))
  | Resume, Ready => Some (with_main s Back)
  | Finish, Back => Some (St (live s) (next s) (count s) (owed s) (ticket s) Idle false (fresh s))
  | _, _ => None
  end.

Fixpoint steps (s : st) (l : list ev) : option st :=
  match l with [] => Some s | e :: l => match step s e with Some s' => steps s' l | None => None end end.
