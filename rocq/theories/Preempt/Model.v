(** Disabling and enabling preemption on several kernel threads: libcfa/src/concurrency/preemption.cfa:233-343,452-465,545-598, kernel.cfa:567-572,611-628, kernel/private.hfa:85-95, invoke.c:79-96.
    What a thread still has to execute is a list of instructions; a call puts the instructions of the function in front, a signal those of its handler. Work is any code outside the functions of the section cfatext_nopreempt. Kernel threads are numbers; each has its thread-local preemption_state, the pending_preemption of its processor, and SIGUSR1 blocked or not. In its scheduler (cur = None) a kernel thread is outside the section, with preemption disabled.
    Not modelled: __cfatls_get, a null this_processor, PREEMPT_TERMINATE, the statistics, which thread is scheduled (any that is not running), memory order. limit is 65000 (285). After the yield of a poll the return from enable_interrupts is not a step of its own. *)
From Coq Require Import List Bool Arith.
Import ListNotations.
Inductive instr :=
| Work
| DisA (checked : bool) (* private.hfa:86 if checked; preemption.cfa:278 *)
| DisB                  (* 283-285 *)
| EnaA (poll : bool)    (* 292-300 *)
| EnaB (poll : bool) (proc : nat) (* 311 *)
| EnaC (proc : nat)     (* 315, 336 *)
| EnaD (proc : nat)     (* 316-317, 337-338 *)
| Ret                   (* what remains of enable_interrupts and poll_interrupts, 318-322, 339-343 *)
| Poll                  (* 328-332 *)
| Switch (may_skip : bool) (* returnToKernel: kernel.cfa:570,603,624; force_yield may pass over it, 621 *)
| HA                    (* preemption.cfa:584-586 *)
| HB.                   (* 589 *)
(** in the section cfatext_nopreempt, 270,290,328 *)
Definition nopre (i : instr) : bool := match i with Work | Switch _ | HA | HB => false | _ => true end.
Record kt := K { enabled : bool; count : nat; inprog : bool; pend : bool; masked : bool; cur : option nat }.
(** dep: ghost, the number of calls of disable_interrupts of the thread without their enable_interrupts *)
Record st := S_ { kts : nat -> kt; cont : nat -> list instr; running : nat -> bool; dep : nat -> nat }.
Definition upd {A} (f : nat -> A) (k : nat) (v : A) : nat -> A := fun j => if j =? k then v else f j.
(** disable_interrupts; enable_interrupts; force_yield, kernel.cfa:611-628; park, 567-572; sigHandler_ctxSwitch after the test, 575-597 *)
Definition disable := [DisA false; DisB].
Definition force_yield := [Work; DisA true; DisB; Switch true; EnaA false].
Definition park := [Work; DisA true; DisB; Switch false; EnaA true].
Definition handler := [HA; HB; Work] ++ force_yield.
(** a thread: invoke.c:84, its main, __cfactx_thrd_leave (kernel.cfa:578-607) *)
Definition thread (prog : list instr) : list instr := EnaA true :: prog ++ [DisA false; DisB; Switch false].
Inductive label := Run (k : nat) (skip : bool) | Signal (k : nat) | Dispatch (k t : nat).
Inductive outcome := Next (s : st) | Abort | Stuck.
Section L.
Variable limit : nat.
(** preemption_ready, 452-465 *)
Definition ready (x : kt) (i : instr) : bool := negb (nopre i) && enabled x && negb (inprog x).
Definition exec (k t : nat) (x : kt) (i : instr) (c : list instr) (skip : bool) (s : st) : outcome :=
  let go x' c' := Next (S_ (upd (kts s) k x') (upd (cont s) t c') (running s) (dep s)) in
  match i with
  | Work => go x c
  | DisA checked => if checked && negb (enabled x) then Abort else go (K false (count x) (inprog x) (pend x) (masked x) (cur x)) c
  | DisB => if S (count x) <? limit then Next (S_ (upd (kts s) k (K (enabled x) (S (count x)) (inprog x) (pend x) (masked x) (cur x))) (upd (cont s) t c) (running s) (upd (dep s) t (S (dep s t)))) else Abort
  | EnaA poll =>
      match count x with
      | 0 => Abort
      | S n => Next (S_ (upd (kts s) k (K (enabled x) n (inprog x) (pend x) (masked x) (cur x))) (upd (cont s) t (match n with 0 => EnaB poll k :: c | _ => c end)) (running s) (upd (dep s) t (pred (dep s t))))
      end
  | EnaB poll proc => go (K true (count x) (inprog x) (pend x) (masked x) (cur x)) (if poll then EnaC proc :: c else Ret :: c)
  | EnaC proc => go x (if pend (kts s proc) then EnaD proc :: c else Ret :: c)
  | EnaD proc =>
      let y := kts s proc in
      Next (S_ (upd (kts s) proc (K (enabled y) (count y) (inprog y) false (masked y) (cur y))) (upd (cont s) t (force_yield ++ c)) (running s) (dep s))
  | Ret => go x c
  | Poll => go x (if enabled x then EnaC k :: c else c)
  | Switch may_skip => if enabled x then Abort else if may_skip && skip then go x c
              else Next (S_ (upd (kts s) k (K (enabled x) (count x) (inprog x) (pend x) (masked x) None)) (upd (cont s) t c) (upd (running s) t false) (dep s))
  | HA => go (K (enabled x) (count x) (inprog x) (pend x) false (cur x)) c
  | HB => go (K (enabled x) (count x) false (pend x) (masked x) (cur x)) c
  end.
Definition step (l : label) (s : st) : outcome :=
  match l with
  | Run k skip =>
      let x := kts s k in
      match cur x with
      | Some t => match cont s t with i :: c => exec k t x i c skip s | [] => Stuck end
      | None => Stuck
      end
  | Signal k => (* 545-597 *)
      let x := kts s k in
      if masked x then Stuck
      else match cur x with
           | None => Next (S_ (upd (kts s) k (K (enabled x) (count x) (inprog x) true (masked x) None)) (cont s) (running s) (dep s))
           | Some t =>
               match cont s t with
               | i :: c => if ready x i then Next (S_ (upd (kts s) k (K (enabled x) (count x) true false true (cur x))) (upd (cont s) t (handler ++ i :: c)) (running s) (dep s))
                           else Next (S_ (upd (kts s) k (K (enabled x) (count x) (inprog x) true (masked x) (cur x))) (cont s) (running s) (dep s))
               | [] => Stuck
               end
           end
  | Dispatch k t => (* __run_thread, kernel.cfa:281-330 *)
      let x := kts s k in
      match cur x, running s t, cont s t with
      | None, false, _ :: _ => Next (S_ (upd (kts s) k (K (enabled x) (count x) (inprog x) (pend x) (masked x) (Some t))) (cont s) (upd (running s) t true) (dep s))
      | _, _, _ => Stuck
      end
  end.
Fixpoint run (l : list label) (s : st) : outcome := match l with [] => Next s | a :: r => match step a s with Next s' => run r s' | o => o end end.
End L.
(** every kernel thread in its scheduler, every thread not started *)
Definition init (prog : nat -> list instr) : st := S_ (fun _ => K false 1 false false false None) (fun t => thread (prog t)) (fun _ => false) (fun _ => 1).
