(** Who runs next, by the history alone (newest first) *)
From Coq Require Import List Bool Arith.
From Verif.Coroutine Require Import Model.
Import ListNotations.
Definition resumes (d : nat) (e : nat * act) : bool := negb (fst e =? d) && match snd e with Resume x | Prime x => x =? d | _ => false end.
Definition resumers (h : history) (d : nat) : list nat := map fst (filter (resumes d) h).
Definition last_resumer (h : history) (d : nat) : option nat := hd_error (resumers h d).
Definition first_resumer (h : history) (d : nat) : option nat := hd_error (rev (resumers h d)).
Definition ended (h : history) (d : nat) : bool := existsb (fun e => (fst e =? d) && match snd e with End => true | _ => false end) h.
Definition gone (h : history) (d : nat) : bool := existsb (fun e => match snd e with Destroy x => x =? d | _ => false end) h.
Definition fresh (h : history) (d : nat) : bool := negb (d =? 0) && match resumers h d with [] => true | _ => false end.
Inductive verdict := To (c : nat) | Stop | Bad.
Definition back (h : history) (t : option nat) : verdict := match t with None => Stop | Some l => if gone h l then Bad else if ended h l then Stop else To l end.
(** the active coroutine c does a: who is active next; Stop: the program is stopped with a message; Bad: use of an object that is gone *)
Definition verdict_of (h : history) (c : nat) (a : act) : verdict :=
  match a with
  | Resume d => if gone h d then Bad else if c =? d then To d else if ended h d then Stop else To d
  | Suspend => back h (last_resumer h c)
  | End => back h (first_resumer h c)
  | Prime d => if gone h d then Bad else if fresh h d then To c else Stop
  | Destroy d => if gone h d then Bad else if c =? d then Stop else To c
  end.
(** The use as routines with memory: a coroutine is resumed only when it is not waiting for a resume of its own, and ends under its first resumer. The stack of active and waiting coroutines, the active one first. *)
Definition allowed (h : history) (k : list nat) (a : act) : bool :=
  match a with
  | Resume d => negb (existsb (Nat.eqb d) k) && negb (ended h d) && negb (gone h d)
  | Suspend => match k with _ :: _ :: _ => true | _ => false end
  | End => match k with c :: b :: _ => match first_resumer h c with Some x => x =? b | None => false end | _ => false end
  | Prime d => fresh h d && negb (gone h d)
  | Destroy d => negb (existsb (Nat.eqb d) k) && negb (gone h d)
  end.
Definition stack_step (k : list nat) (a : act) : list nat := match a with Resume d => d :: k | Suspend | End => tl k | _ => k end.
Fixpoint stack_run (h : history) (k : list nat) (l : list act) : option (history * list nat) :=
  match l with
  | [] => Some (h, k)
  | a :: l => if allowed h k a then stack_run ((hd 0 k, a) :: h) (stack_step k a) l else None
  end.
