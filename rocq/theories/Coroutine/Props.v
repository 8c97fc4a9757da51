From Coq Require Import List Bool Arith.
From Verif.Coroutine Require Import Model Spec Proofs.
Import ListNotations.
(** C99: in every execution of any number of coroutines of a thread, with any actions, the coroutine that runs next is determined by the history as specified: suspend goes to the last resumer, the end to the first resumer, a terminated coroutine is not resumed. *)
Theorem C99_control : forall l s h a, exec l init [] = Some (s, h) -> verdict_out (step a s) = verdict_of h (cur s) a.
Proof. exact control. Qed.
Print Assumptions C99_control.
Definition who (l : list act) : option nat := option_map (fun z => cur (fst z)) (exec l init []).
Example C99_control_generator : who [Resume 1; Suspend; Resume 1; Resume 2; Resume 3; Suspend; Suspend; Resume 2] = Some 2 /\ who [Resume 1; Suspend; Resume 1; Resume 2; Resume 3; Suspend; Suspend; Resume 2; Suspend; End] = Some 0.
Proof. split; vm_compute; reflexivity. Qed.
Example C99_control_full : who [Resume 1; Resume 2; Resume 1; Resume 2; Suspend; Suspend; Suspend] = Some 1.
Proof. vm_compute. reflexivity. Qed.
Example C99_control_stop : who [Suspend] = None /\ who [Resume 1; End; Resume 1] = None /\ who [Prime 1; Resume 1; Prime 1] = None /\ who [Prime 1; Prime 2; Resume 1] = Some 1.
Proof. repeat split; vm_compute; reflexivity. Qed.
(** C99: exactly one coroutine of a thread is Active, the current one. *)
Theorem C99_one_active : forall l s h, exec l init [] = Some (s, h) -> forall c, st (cs s c) = Active <-> c = cur s.
Proof. exact one_active. Qed.
Print Assumptions C99_one_active.
Example C99_one_active_example : match exec [Resume 1; Resume 2] init [] with Some (s, _) => map (fun c => st (cs s c)) [0; 1; 2; 3] = [Blocked; Blocked; Active; Start] | None => False end.
Proof. vm_compute. reflexivity. Qed.
(** C99: a coroutine that has ended or has been destroyed never runs again. *)
Theorem C99_never_again : forall l1 l2 s1 h1 s2 h2 d, exec l1 init [] = Some (s1, h1) -> ended h1 d || gone h1 d = true -> exec l2 s1 h1 = Some (s2, h2) -> cur s2 <> d.
Proof. exact never_again. Qed.
Print Assumptions C99_never_again.
Example C99_never_again_example : who [Resume 1; End; Resume 2; Suspend; Destroy 2; Destroy 1; Resume 3] = Some 3.
Proof. vm_compute. reflexivity. Qed.
(** C99: used as routines with memory, coroutines behave as a stack of calls: no check fails, resume pushes, suspend and the end pop. *)
Theorem C99_stack : forall l h k, stack_run [] [0] l = Some (h, k) -> exists s, exec l init [] = Some (s, h) /\ hd_error k = Some (cur s) /\ NoDup k.
Proof. exact stack. Qed.
Print Assumptions C99_stack.
Example C99_stack_example : option_map snd (stack_run [] [0] [Prime 4; Resume 1; Resume 2; Suspend; Resume 3; Resume 2; Suspend; End; Destroy 3; Resume 4]) = Some [4; 1; 0].
Proof. vm_compute. reflexivity. Qed.

(** C99, not so: when a coroutine ends, the coroutine that waits for it gets control. The end goes to the first resumer, here 1, which waits in a suspend, not to 0, which resumed it. *)
Theorem C99_end_refuted : ~ (forall l s h, exec l init [] = Some (s, h) -> verdict_out (step End s) = back h (last_resumer h (cur s))).
Proof.
  intros H. set (l := [Resume 1; Resume 2; Suspend; Suspend; Resume 2]).
  assert (X : match exec l init [] with Some (s, h) => verdict_out (step End s) = To 1 /\ back h (last_resumer h (cur s)) = To 0 | None => False end) by (vm_compute; split; reflexivity).
  destruct (exec l init []) as [[s h]|] eqn:E; [|contradiction]. destruct X as [A B]. rewrite (H l s h E), B in A. discriminate.
Qed.
Print Assumptions C99_end_refuted.
(** C99, not so: resume, suspend and the end of coroutines that exist use only coroutines that exist: the first resumer may have been destroyed. *)
Theorem C99_freed_refuted : ~ (forall l s h, exec l init [] = Some (s, h) -> step End s <> Undef).
Proof.
  intros H. set (l := [Resume 1; Resume 2; Suspend; Suspend; Destroy 1; Resume 2]).
  assert (X : match exec l init [] with Some (s, h) => step End s = Undef | None => False end) by (vm_compute; reflexivity).
  destruct (exec l init []) as [[s h]|] eqn:E; [|contradiction]. exact (H l s h E X).
Qed.
Print Assumptions C99_freed_refuted.
(** C99, not so: a coroutine that waits for the return of a resume is not destroyed under the coroutine it resumed. *)
Theorem C99_waiting_refuted : ~ (forall l s h d, exec l init [] = Some (s, h) -> last_resumer h (cur s) = Some d -> step (Destroy d) s = Abort \/ step (Destroy d) s = Undef).
Proof.
  intros H. set (l := [Resume 1; Resume 2]).
  assert (X : match exec l init [] with Some (s, h) => last_resumer h (cur s) = Some 1 /\ verdict_out (step (Destroy 1) s) = To 2 | None => False end) by (vm_compute; split; reflexivity).
  destruct (exec l init []) as [[s h]|] eqn:E; [|contradiction]. destruct X as [A B]. destruct (H l s h 1 E A) as [C|C]; rewrite C in B; discriminate.
Qed.
Print Assumptions C99_waiting_refuted.
Example C99_waiting_then : match exec [Resume 1; Resume 2; Destroy 1] init [] with Some (s, _) => step Suspend s = Undef | None => False end.
Proof. vm_compute. reflexivity. Qed.
