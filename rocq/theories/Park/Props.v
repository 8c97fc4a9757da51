(** C64: park and unpark. *)
From Coq Require Import ZArith Bool Lia Arith.
From Verif.Park Require Import Model Spec Proofs.
Open Scope nat_scope.

(** A thread that is neither running nor on a ready queue has called park once more than it was unparked: an unpark is
    never lost, whichever side of the park it arrives on. *)
Theorem C64_no_lost_wakeup : forall s, reach s -> wrong s = None -> pc s = Off -> rdy s = 0 ->
  unmatched (parks s) (unparks s).
Proof. exact asleep_unmatched. Qed.
Print Assumptions C64_no_lost_wakeup.
(** A thread whose parks are all matched and which is not running gets to run by one step of some processor. *)
Theorem C64_matched_resumes : forall s, reach s -> wrong s = None -> pc s = Off \/ pc s = Switch -> parks s <= unparks s ->
  exists s1, (step s ARun = Some s1 \/ step s AKernel = Some s1) /\ pc s1 = Run /\ wrong s1 = None.
Proof. exact unpark_resumes. Qed.
Print Assumptions C64_matched_resumes.
(** A thread is on at most one ready queue, only when it is off the processor, and is never run by two processors; the
    processor's own ticket check never fails. *)
Theorem C64_scheduled_once : forall s, reach s -> wrong s <> Some RunTwice /\ wrong s <> Some MismatchPark /\
  (wrong s = None -> rdy s <= 1 /\ (rdy s = 1 -> pc s = Off)).
Proof. exact ready_once. Qed.
Print Assumptions C64_scheduled_once.
(** park returns only when matched; at most one unpark is banked. *)
Theorem C64_returns_matched : forall s, reach s -> wrong s = None -> pc s = Run -> may_run (parks s) (unparks s).
Proof. exact run_matched. Qed.
Print Assumptions C64_returns_matched.
(** unpark aborts exactly when it is one too many (or the thread is dead). *)
Theorem C64_abort_iff_mismatch : forall s s', reach s -> step s AUnpark = Some s' ->
  (wrong s' <> None <-> (pc s = Halt \/ pc s = Gone \/ too_many (parks s) (unparks s) /\ pc s <> Switch \/
     parks s = unparks s /\ pc s = Switch)).
Proof. exact unpark_aborts. Qed.
Print Assumptions C64_abort_iff_mismatch.

Fixpoint go (s : st) (l : list act) : option st :=
  match l with nil => Some s | cons a l => match step s a with Some s' => go s' l | None => None end end.
(** park then unpark while the processor is still switching away: runs on; then unpark ahead of park; a second early
    unpark aborts. *)
Example C64_example :
  go init (ARun :: APark :: AUnpark :: AKernel :: AUnpark :: APark :: AKernel :: APark :: AKernel :: AUnpark :: ARun :: nil)%list
  = Some (S_ 0 Run 0 None 3 3) /\
  option_map wrong (go init (ARun :: AUnpark :: AUnpark :: nil)%list) = Some (Some MismatchUnpark).
Proof. vm_compute. auto. Qed.
