(** waituntil in general, with a status per clause and a park counter: the code generated by src/Concurrency/Waituntil.cpp:582-868 and 1206-1400, libcfa/src/concurrency/select.hfa:33-37, 154-164, 186-199,
    and the registering and unregistering of futures (future.hfa:57-86, 174-189) and channels (channel.hfa:371-383, 418-577).
    One waiter, any number of clauses, each joined to its own waker; one transition per atomic instruction on a status word or on the counter. The waker of a channel holds the channel's lock from removing the
    node until after the unpark; unregistering from a channel takes that lock. The waker of a future holds the future's lock for as long, but unregistering takes it only for a node still listed.
    Running a clause (Body, FinB) is the call of on_selected$ followed, if that returns true, by the body of the clause. The read of the status before the CAS (select.hfa:161) is taken with the CAS.
    Exceptions, timeouts, sharing channels with exclusive waituntils (SelectOr/), and what is transferred are not modelled. *)
From Coq Require Import List Bool Arith ZArith.
Open Scope nat_scope.
Inductive status := UNSAT | SAT | RUN.
Inductive kind := Future | Channel.
(** the select node and its waker: not registered (or satisfied while registering); in the resource's list; removed by the waker, before the CAS of select.hfa:162; before the addition of 163; before unpark; finished *)
Inductive node := NotReg | Listed | Cas | Add | Wake | Off.
Inductive pc :=
  | Reg (k : nat)        (** setUpClause of clause k, 587-617 *)
  | RegAdd (k : nat)     (** available at once: status set, counter not yet *)
  | Check                (** while ( ! is_run_sat ), 841-866 *)
  | Dec                  (** __CFA_maybe_park: sub_fetch *)
  | Park
  | Scan (i : nat)       (** genStatusCheckFor, 666-810 *)
  | Body (i : nat)
  | Unr (i : nat)        (** unregister_select of a clause that ran *)
  | ElseB                (** genElseClauseBranch, 829-839 *)
  | Fin (i : nat)        (** the finally clause, 1320-1396 *)
  | FinU (i : nat)
  | FinB (i : nat)
  | Done.
(** a statement: number of clauses, which are enabled (when), the status disabled clauses are given (WhenTree/), the resource of each, an else clause, and the predicate on the clauses that ran *)
Record cfg := { n : nat; en : nat -> bool; pre : nat -> bool; kd : nat -> kind; els : bool; prd : list bool -> bool }.
Record state := mk { st : nat -> status; nd : nat -> node; cnt : Z; tok : bool; ran : nat -> nat; at_ : pc }.
Definition upd {X} (f : nat -> X) (i : nat) (x : X) : nat -> X := fun j => if j =? i then x else f j.
Definition goto (s : state) (p : pc) : state := mk (st s) (nd s) (cnt s) (tok s) (ran s) p.
Definition set_st (s : state) (i : nat) (x : status) : state := mk (upd (st s) i x) (nd s) (cnt s) (tok s) (ran s) (at_ s).
Definition set_nd (s : state) (i : nat) (x : node) : state := mk (st s) (upd (nd s) i x) (cnt s) (tok s) (ran s) (at_ s).
Definition add_c (s : state) (d : Z) : state := mk (st s) (nd s) (cnt s + d) (tok s) (ran s) (at_ s).
Definition set_tok (s : state) (b : bool) : state := mk (st s) (nd s) (cnt s) b (ran s) (at_ s).
Definition set_ran (s : state) (i : nat) : state := mk (st s) (nd s) (cnt s) (tok s) (upd (ran s) i (ran s i + 1)) (at_ s).
Definition is_run (x : status) : bool := match x with RUN => true | _ => false end.
(** __is_run_sat_ *)
Definition complete (c : cfg) (s : state) : bool := prd c (map (fun i => is_run (st s i)) (seq 0 (n c))).
Definition busy (x : node) : bool := match x with Cas | Add | Wake => true | _ => false end.
Definition listed (x : node) : bool := match x with Listed => true | _ => false end.
(** register_select$ finds the resource available, or not; the waiter's step; the waker of clause i takes the node; the waker's next step *)
Inductive act := Now | Go | Take (i : nat) | Waker (i : nat).
Definition scanned (c : cfg) (s : state) : state := if els c then (if complete c s then goto s (Fin 0) else goto s ElseB) else goto s Check.
Definition step (c : cfg) (s : state) (a : act) : option state :=
  match a with
  | Take i => match nd s i with Listed => Some (set_nd s i Cas) | _ => None end
  | Waker i => match nd s i with
      | Cas => Some (match st s i with UNSAT => set_nd (set_st s i SAT) i Add | _ => set_nd s i Off end)
      | Add => Some (set_nd (add_c s 1) i (if (cnt s + 1 =? 0)%Z then Wake else Off))
      | Wake => Some (set_nd (set_tok s true) i Off)
      | _ => None
      end
  | Now => match at_ s with
      | Reg k => if (k <? n c) && en c k then Some (goto (set_st s k SAT) (RegAdd k)) else None
      | _ => None
      end
  | Go => match at_ s with
      | Reg k => Some (if k <? n c then (if en c k then goto (set_nd s k Listed) (Reg (k + 1)) else goto s (Reg (k + 1))) else goto s (if els c then Scan 0 else Check))
      | RegAdd k => Some (goto (add_c s 1) (Reg (k + 1)))
      | Check => Some (goto s (if complete c s then Fin 0 else Dec))
      | Dec => Some (goto (add_c s (-1)) (if (cnt s - 1 <? 0)%Z then Park else Scan 0))
      | Park => if tok s then Some (goto (set_tok s false) (Scan 0)) else None
      | Scan i => Some (if i <? n c then (if complete c s then scanned c s else match st s i with SAT => goto s (Body i) | _ => goto s (Scan (i + 1)) end) else scanned c s)
      | Body i => Some (goto (set_st (set_ran s i) i RUN) (Unr i))
      | Unr i => match kd c i with
          | Future => Some (goto (if listed (nd s i) then set_nd s i Off else s) (Scan (i + 1)))
          | Channel => if busy (nd s i) then None else Some (goto (if listed (nd s i) then set_nd s i Off else s) (Scan (i + 1)))
          end
      | ElseB => Some (goto s (Fin 0))
      | Fin i => Some (if i <? n c then (if en c i && negb (is_run (st s i)) then goto s (FinU i) else goto s (Fin (i + 1))) else goto s Done)
      | FinU i => match kd c i with
          | Future => Some (goto (if listed (nd s i) then set_nd s i Off else s) (Fin (i + 1)))
          | Channel => if busy (nd s i) then None else Some (if listed (nd s i) then goto (set_nd s i Off) (Fin (i + 1)) else match st s i with SAT => goto s (FinB i) | _ => goto s (Fin (i + 1)) end)
          end
      | FinB i => Some (goto (set_ran s i) (Fin (i + 1)))
      | Done => None
      end
  end.
Definition start (c : cfg) : state := mk (fun i => if negb (en c i) && pre c i then RUN else UNSAT) (fun _ => NotReg) 0 false (fun _ => 0) (Reg 0).
Fixpoint run (c : cfg) (s : state) (l : list act) : option state :=
  match l with nil => Some s | cons a l => match step c s a with Some s1 => run c s1 l | None => None end end.
