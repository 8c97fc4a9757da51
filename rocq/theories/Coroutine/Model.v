(** Coroutines of one thread, libcfa/src/concurrency/coroutine.hfa and coroutine.cfa, with debug assertions. Coroutine 0 is the one of the thread.
    What a coroutine does between the calls is left open: an execution is any sequence of actions of whichever coroutine is active.
    Not modelled: stacks, cancellation by exceptions (CoroutineCancelled) and non-local exceptions, resume( coroutine$ * ), actions of the destructors that run while a destroyed coroutine is unwound, the end of the thread. *)
From Coq Require Import List Bool Arith.
Import ListNotations.
(** invoke.h:87; Freed: the coroutine object is gone *)
Inductive cstate := Halted | Start | Primed | Blocked | Active | Freed.
Record cor := Cor { st : cstate; starter : option nat; last : option nat }.
Record state := St { cur : nat; cs : nat -> cor }.
Inductive out := Go (s : state) | Abort | Undef.
Definition upd (f : nat -> cor) (i : nat) (c : cor) (j : nat) : cor := if j =? i then c else f j.
Definition set_st (f : nat -> cor) (i : nat) (x : cstate) : nat -> cor := upd f i (Cor x (starter (f i)) (last (f i))).
(** the constructor, coroutine.cfa:124-135; the coroutine of the thread runs *)
Definition init : state := St 0 (fun c => if c =? 0 then Cor Active None None else Cor Start None None).
(** $ctx_switch, coroutine.hfa:104-136: the state of src, then dst is active: either it returns from its own $ctx_switch (130-131) or starts in __cfactx_cor_finish (coroutine.cfa:307) *)
Definition is_halted (x : cstate) : bool := match x with Halted => true | _ => false end.
Definition is_freed (x : cstate) : bool := match x with Freed => true | _ => false end.
Definition switch (s : state) (src dst : nat) : state :=
  St dst (set_st (set_st (cs s) src (if is_halted (st (cs s src)) then Halted else Blocked)) dst Active).
(** leaving to t, which must not be terminated, coroutine.hfa:150-159 and coroutine.cfa:282-291 *)
Definition leave_to (s : state) (src : nat) (t : option nat) : out :=
  match t with
  | None => Abort
  | Some l => match st (cs s l) with Freed => Undef | Halted => Abort | _ => Go (switch s src l) end
  end.
(** resume, coroutine.hfa:169-207 *)
Definition resume (s : state) (d : nat) : out :=
  let src := cur s in
  if is_freed (st (cs s d)) then Undef else
  if src =? d then Go (switch s src d) else
  if is_halted (st (cs s d)) then Abort else
  Go (switch (St src (upd (cs s) d (Cor (st (cs s d)) (match starter (cs s d) with Some x => Some x | None => Some src end) (Some src)))) src d).
(** __cfactx_suspend, coroutine.hfa:142-160 *)
Definition suspend (s : state) : out := leave_to s (cur s) (last (cs s (cur s))).
(** main returns: __cfactx_cor_leave, coroutine.cfa:277-292, called by invoke.c:48 *)
Definition cor_end (s : state) : out := leave_to (St (cur s) (set_st (cs s) (cur s) Halted)) (cur s) (starter (cs s (cur s))).
(** prime, coroutine.cfa:176-182, with the suspend of __cfactx_cor_finish, 303-305 *)
Definition prime (s : state) (d : nat) : out :=
  match st (cs s d) with
  | Freed => Undef
  | Start => match resume (St (cur s) (set_st (cs s) d Primed)) d with Go s1 => suspend s1 | o => o end
  | _ => Abort
  end.
(** the destructor, coroutine.cfa:137-171: a coroutine that has not ended is unwound and returns to the destroyer by __cfactx_cor_leave *)
Definition destroy (s : state) (d : nat) : out :=
  match st (cs s d) with
  | Freed => Undef
  | Halted | Start | Primed => Go (St (cur s) (set_st (cs s) d Freed))
  | _ => if cur s =? d then Abort else
      let s1 := switch (St (cur s) (upd (cs s) d (Cor (st (cs s d)) (starter (cs s d)) (Some (cur s))))) (cur s) d in
      match leave_to (St d (set_st (cs s1) d Halted)) d (last (cs s1 d)) with Go s2 => Go (St (cur s2) (set_st (cs s2) d Freed)) | o => o end
  end.
Inductive act := Resume (d : nat) | Suspend | End | Prime (d : nat) | Destroy (d : nat).
Definition step (a : act) (s : state) : out := match a with Resume d => resume s d | Suspend => suspend s | End => cor_end s | Prime d => prime s d | Destroy d => destroy s d end.
(** executions, with their history, newest first: who did what *)
Definition history := list (nat * act).
Fixpoint exec (l : list act) (s : state) (h : history) : option (state * history) :=
  match l with [] => Some (s, h) | a :: l => match step a s with Go s' => exec l s' ((cur s, a) :: h) | _ => None end end.
