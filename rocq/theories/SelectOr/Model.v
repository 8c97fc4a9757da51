(** waituntil over alternatives ("special OR"): libcfa/src/concurrency/select.hfa, the generated code of src/Concurrency/Waituntil.cpp:939-1204 and
    the registration of zero-size channels, libcfa/src/concurrency/channel.hfa:370-578. Any number of threads and channels; plain insert and remove take part too.
    One transition per atomic instruction on a status word; the rest of what is done under a channel's lock goes with the neighbouring instruction. Channels are not closed here and have size 0
    (buffers and closing: Channel/); waituntil with AND: SelectAnd/; what is transferred is not modelled, only who meets whom. when conditions only select the clause list. *)
From Coq Require Import List Bool Arith.
Import ListNotations.
(** select.hfa:27-30; [Won k]: the address of the select node of clause k *)
Inductive status := Unsat | Pend | Sat | Won (k : nat).
Inductive pc :=
  | Out
  | Lock (k : nat)              (** lock( mutex_lock ) of clause k's channel; plain operations have the one clause 0 *)
  | Top (k : nat)               (** channel.hfa:420-427, 521-528 *)
  | PendL (k : nat)             (** __handle_pending, 385-398, with the CAS of __pending_set_other *)
  | Tog1 (k : nat)              (** select.hfa:139 *)
  | Tog2 (k : nat)              (** select.hfa:141 *)
  | PendF (k : nat)             (** channel.hfa:435-436, 535-536 *)
  | Avail (k : nat)             (** channel.hfa:439-444, 539-544 *)
  | Loop (k : nat)              (** __handle_waituntil_OR, select.hfa:170-183 *)
  | Hand (k : nat)              (** __cons_handoff, __prods_handoff, unlock *)
  | HandP (k : nat)             (** the same after __handle_pending; then 431, 531 *)
  | SatP (k : nat)
  | Else                        (** __select_node_else_race *)
  | Park
  | Fin (k : nat)               (** the body of clause k *)
  | FinElse
  | Unreg (j : nat)             (** unregister_chan of clause j, 371 *)
  | UnregL (j : nat)            (** 372-377 *)
  | NoBody.                     (** after park, no clause's address matches: no body runs *)
Record state := S {
  ops : nat -> list (bool * nat);      (** the clauses of the thread's operation: true = send, the channel *)
  plain : nat -> bool; els : nat -> bool;
  st : nat -> status; at_ : nat -> pc; tok : nat -> bool;
  lk : nat -> option nat; q : bool -> nat -> list (nat * nat);     (** queues of senders and receivers: thread, clause *)
  met : nat -> list (nat * nat)        (** ghost: the clause and partner of each rendezvous of the thread's present operation *) }.
Definition upd {X} (f : nat -> X) (i : nat) (x : X) : nat -> X := fun j => if j =? i then x else f j.
Definition goto (s : state) (t : nat) (p : pc) : state := S (ops s) (plain s) (els s) (st s) (upd (at_ s) t p) (tok s) (lk s) (q s) (met s).
Definition set_st (s : state) (t : nat) (x : status) : state := S (ops s) (plain s) (els s) (upd (st s) t x) (at_ s) (tok s) (lk s) (q s) (met s).
Definition set_tok (s : state) (t : nat) (b : bool) : state := S (ops s) (plain s) (els s) (st s) (at_ s) (upd (tok s) t b) (lk s) (q s) (met s).
Definition set_lk (s : state) (c : nat) (o : option nat) : state := S (ops s) (plain s) (els s) (st s) (at_ s) (tok s) (upd (lk s) c o) (q s) (met s).
Definition set_q (s : state) (d : bool) (c : nat) (l : list (nat * nat)) : state :=
  S (ops s) (plain s) (els s) (st s) (at_ s) (tok s) (lk s) (fun d' c' => if Bool.eqb d' d && (c' =? c) then l else q s d' c') (met s).
Definition meet (s : state) (t k u j : nat) : state :=
  S (ops s) (plain s) (els s) (st s) (at_ s) (tok s) (lk s) (q s) (upd (upd (met s) t (met s t ++ [(k, u)])) u (upd (met s) t (met s t ++ [(k, u)]) u ++ [(j, t)])).
(** the operation begins: a fresh status word (Waituntil.cpp:1098), fresh nodes *)
Definition begin (s : state) (t : nat) (l : list (bool * nat)) (p e : bool) : state :=
  S (upd (ops s) t l) (upd (plain s) t p) (upd (els s) t e) (upd (st s) t Unsat) (upd (at_ s) t (Lock 0)) (tok s) (lk s) (q s) (upd (met s) t []).
(** after register_select$ returned false: the next clause, the else race, or park (Waituntil.cpp:980-1056) *)
Definition next (s : state) (t k : nat) : state :=
  goto s t (if k + 1 <? length (ops s t) then Lock (k + 1) else if els s t then Else else Park).
Definition eqn (a b : nat * nat) : bool := (fst a =? fst b) && (snd a =? snd b).
(** hand over to the first node of the queue: copy, remove_first, unpark (select.hfa:186-193) *)
Definition handoff (s : state) (t k : nat) (d : bool) (c : nat) : option (state) :=
  match q s (negb d) c with
  | (u, j) :: r => Some (set_tok (meet (set_q s (negb d) c r) t k u j) u true)
  | [] => None
  end.
Inductive act := Start (l : list (bool * nat)) (p e : bool) | Go.
Definition step (s : state) (t : nat) (a : act) : option state :=
  match at_ s t, a with
  | Out, Start l p e => match l with
      | [] => None
      | x :: r => Some (begin s t (if p then [x] else l) p (if p then false else e))
      end
  | Lock k, Go => match nth_error (ops s t) k with
      | Some (d, c) => match lk s c with
          | None => Some (goto (set_lk s c (Some t)) t (if plain s t then Loop k else Top k))
          | Some _ => None
          end
      | None => None
      end
  | Top k, Go => match nth_error (ops s t) k with
      | Some (d, c) => match q s (negb d) c with
          | (u, j) :: _ => if plain s u then Some (goto s t (Avail k))
              else match st s t with
                   | Unsat => Some (goto (set_st s t Pend) t (PendL k))
                   | Pend => Some s
                   | _ => Some (next (set_lk s c None) t k)
                   end
          | [] => Some (goto s t (Avail k))
          end
      | None => None
      end
  | PendL k, Go => match nth_error (ops s t) k with
      | Some (d, c) => match q s (negb d) c with
          | [] => Some (goto s t (PendF k))
          | (u, j) :: r => if plain s u then Some (goto s t (HandP k))
              else match st s u with
                   | Unsat => Some (goto (set_st s u (Won j)) t (HandP k))
                   | Pend => Some (goto s t (Tog1 k))
                   | _ => Some (match st s t with Pend => set_q s (negb d) c r | _ => goto s t (PendF k) end)
                   end
          end
      | None => None
      end
  | Tog1 k, Go => Some (goto (set_st s t Unsat) t (Tog2 k))
  | Tog2 k, Go => Some (match st s t with Unsat => goto (set_st s t Pend) t (PendL k) | _ => goto s t (PendF k) end)
  | PendF k, Go => Some (goto (match st s t with Pend => set_st s t Unsat | _ => s end) t (Avail k))
  | Avail k, Go => match nth_error (ops s t) k with
      | Some (d, c) => match q s (negb d) c with
          | [] => Some (next (set_lk (set_q s d c (q s d c ++ [(t, k)])) c None) t k)
          | _ => match st s t with
                 | Unsat => Some (goto (set_st s t (Won k)) t (Loop k))
                 | Pend => Some s
                 | _ => Some (next (set_lk s c None) t k)
                 end
          end
      | None => None
      end
  | Loop k, Go => match nth_error (ops s t) k with
      | Some (d, c) => match q s (negb d) c with
          | [] => Some (let s1 := set_lk (set_q s d c (q s d c ++ [(t, k)])) c None in if plain s t then goto s1 t Park else next s1 t k)
          | (u, j) :: r => if plain s u then Some (goto s t (Hand k))
              else match st s u with
                   | Unsat => Some (goto (set_st s u (Won j)) t (Hand k))
                   | Pend => Some s
                   | _ => Some (set_q s (negb d) c r)
                   end
          end
      | None => None
      end
  | Hand k, Go => match nth_error (ops s t) k with
      | Some (d, c) => match handoff s t k d c with Some s1 => Some (goto (set_lk s1 c None) t (Fin k)) | None => None end
      | None => None
      end
  | HandP k, Go => match nth_error (ops s t) k with
      | Some (d, c) => match handoff s t k d c with Some s1 => Some (goto s1 t (SatP k)) | None => None end
      | None => None
      end
  | SatP k, Go => match nth_error (ops s t) k with
      | Some (d, c) => Some (goto (set_lk (set_st s t Sat) c None) t (Fin k))
      | None => None
      end
  | Else, Go => Some (match st s t with Unsat => goto (set_st s t Sat) t FinElse | _ => goto s t Park end)
  | Park, Go => if tok s t then Some (goto (set_tok s t false) t (if plain s t then Fin 0 else match st s t with Won k => Fin k | _ => NoBody end)) else None
  | Fin k, Go => Some (goto s t (if plain s t then Out else Unreg 0))
  | FinElse, Go => Some (goto s t (Unreg 0))
  | NoBody, Go => Some (goto s t (Unreg 0))
  | Unreg j, Go => match nth_error (ops s t) j with
      | Some (d, c) => Some (goto s t (if existsb (eqn (t, j)) (q s d c) then UnregL j else Unreg (j + 1)))
      | None => Some (goto s t Out)
      end
  | UnregL j, Go => match nth_error (ops s t) j with
      | Some (d, c) => match lk s c with
          | None => Some (goto (set_q s d c (filter (fun e => negb (eqn (t, j) e)) (q s d c))) t (Unreg (j + 1)))
          | Some _ => None
          end
      | None => None
      end
  | _, _ => None
  end.
Definition start : state := S (fun _ => []) (fun _ => true) (fun _ => false) (fun _ => Unsat) (fun _ => Out) (fun _ => false) (fun _ => None) (fun _ _ => []) (fun _ => []).
Fixpoint run (s : state) (l : list (nat * act)) : option state :=
  match l with [] => Some s | (t, a) :: l => match step s t a with Some s1 => run s1 l | None => None end end.
