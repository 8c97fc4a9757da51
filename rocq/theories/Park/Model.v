(** Parking and unparking a thread: the ticket protocol of
    libcfa/src/concurrency/kernel.cfa and libcfa/src/concurrency/kernel/private.hfa.
    One transition per atomic operation on [ticket]; the context switch to and from the processor coroutine is a
    separate transition. Left out: interrupt masking, statistics, debug verifications, which cluster / sub-queue the
    thread is placed on (the ready queue is represented by how many times the thread is on it), the test at
    kernel.cfa:619-623 that lets [force_yield] decline (declining has no effect on the ticket). *)
From Coq Require Import ZArith Bool Lia.
Open Scope Z_scope.

(** private.hfa:129-132: TICKET_BLOCKED, TICKET_RUNNING, TICKET_UNBLOCK, TICKET_DEAD. *)
Definition BLOCKED : Z := -1.
Definition RUNNING : Z := 0.
Definition UNBLOCK : Z := 1.
Definition DEAD : Z := 57005.

(** kernel.cfa:370-384, the end of [__run_thread]: what the processor does with a thread that gave up the processor by
    [park]: subtract one from the ticket and switch on the old value. *)
Inductive subres := Leave | RunAgain | SubAbort.
Definition park_sub (t : Z) : Z * subres :=
  (t - 1, if t =? RUNNING then Leave else if t =? UNBLOCK then RunAgain else SubAbort).

(** kernel.cfa:525-540 [__must_unpark]: add one, switch on the old value. *)
Inductive addres := AlreadyAwake | Schedule | AddAbort.
Definition unpark_add (t : Z) : Z * addres :=
  (t + 1, if t =? RUNNING then AlreadyAwake else if t =? BLOCKED then Schedule else AddAbort).

(** Where the thread is: running user code; switched to the processor coroutine by [park] (kernel.cfa:566-572) but the
    ticket not yet decremented; switched by [force_yield] (kernel.cfa:609-627) or preemption; off the processor;
    switched by [__cfactx_thrd_leave] (kernel.cfa:574-607); finished. *)
Inductive place := Run | Switch | SwitchY | Off | Halt | Gone.

(** Ways a run can go wrong: the abort calls, and (not a call in the code, but what must never happen) two processors
    running the same thread. *)
Inductive bad := MismatchUnpark | MismatchPark | PendingAtExit | RunTwice.

Record st := S_ {
  ticket : Z;
  pc : place;
  rdy : nat;            (* how many times the thread is on a ready queue *)
  wrong : option bad;   (* the program stopped *)
  parks : nat;          (* ghost: calls of park so far *)
  unparks : nat         (* ghost: calls of unpark so far *)
}.
(** thread.cfa:38: a new thread's ticket is TICKET_RUNNING; thread start schedules it. *)
Definition init : st := S_ RUNNING Off 1 None 0 0.

Inductive act := APark | AYield | AExit | AKernel | AUnpark | ARun.

Definition step (s : st) (a : act) : option st :=
  match wrong s with
  | Some _ => None
  | None =>
    match a, pc s with
    (* park(): kernel.cfa:566-572 *)
    | APark, Run => Some (S_ (ticket s) Switch (rdy s) None (S (parks s)) (unparks s))
    (* force_yield / preemption: kernel.cfa:609-627 *)
    | AYield, Run => Some (S_ (ticket s) SwitchY (rdy s) None (parks s) (unparks s))
    (* __cfactx_thrd_leave: kernel.cfa:595-600 *)
    | AExit, Run =>
        if ticket s =? RUNNING then Some (S_ DEAD Halt (rdy s) None (parks s) (unparks s))
        else Some (S_ (ticket s) Run (rdy s) (Some PendingAtExit) (parks s) (unparks s))
    (* __run_thread after the switch: kernel.cfa:370-384 *)
    | AKernel, Switch =>
        let (t, r) := park_sub (ticket s) in
        match r with
        | Leave => Some (S_ t Off (rdy s) None (parks s) (unparks s))
        | RunAgain => Some (S_ t Run (rdy s) None (parks s) (unparks s))
        | SubAbort => Some (S_ t Off (rdy s) (Some MismatchPark) (parks s) (unparks s))
        end
    (* kernel.cfa:340-348: preempted or yielded, put it back on the ready queue *)
    | AKernel, SwitchY => Some (S_ (ticket s) Off (S (rdy s)) None (parks s) (unparks s))
    (* kernel.cfa:350-359: the thread has halted *)
    | AKernel, Halt => Some (S_ (ticket s) Gone (rdy s) None (parks s) (unparks s))
    | AKernel, _ => None
    (* unpark(): kernel.cfa:556-564 *)
    | AUnpark, p =>
        let (t, r) := unpark_add (ticket s) in
        match r with
        | AlreadyAwake => Some (S_ t p (rdy s) None (parks s) (S (unparks s)))
        | Schedule => Some (S_ t p (S (rdy s)) None (parks s) (S (unparks s)))
        | AddAbort => Some (S_ t p (rdy s) (Some MismatchUnpark) (parks s) (S (unparks s)))
        end
    (* a processor takes the thread from the ready queue: kernel.cfa:278-325 *)
    | ARun, p =>
        match rdy s with
        | O => None
        | S n => Some (S_ (ticket s) Run n (match p with Off => None | _ => Some RunTwice end) (parks s) (unparks s))
        end
    | _, _ => None
    end
  end.

Inductive reach : st -> Prop :=
| r0 : reach init
| rS s a s' : reach s -> step s a = Some s' -> reach s'.
