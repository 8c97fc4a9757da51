(** C67: the runtime's internal collections. *)
From Coq Require Import List Bool Arith Lia.
From Verif.Collections Require Import Spec Rep ProofsSeq.
From Verif.RtColl Require Import Spec Model Proofs.
Import ListNotations.
(** Every history of operations on any number of __queues passes the checks and gives the results of FIFO lists; afterwards, following the links from the head gives
    exactly the list, the tail points at the place holding 1p, and the link of every node in no list is 0p. *)
Theorem C67_queue os L rs : runs qspec none os L rs -> exists h, execs qexec init os = Some (h, rs) /\
  (forall l k, length (L l) < k -> links (mem h) (Hd l) k = L l) /\ (forall l, mem h (tl h l) = One) /\ (forall n, unlisted L n -> mem h (Nx n) = Nul).
Proof.
  intro X. destruct (execs_sim qexec qspec QR qsim os none L rs init X init_QR) as (h & A & B). exists h. split; auto. split; [|split].
  - intros l k K. apply links_ok with One; try discriminate; auto. apply (lC _ _ _ (qL _ _ B)).
  - intro l. apply tail_one with L. exact B.
  - apply (lU _ _ _ (qL _ _ B)).
Qed.
Print Assumptions C67_queue.
Theorem C67_stack os L rs : runs sspec none os L rs -> exists m, execs sexec sinit os = Some (m, rs) /\
  (forall l k, length (L l) < k -> links m (Hd l) k = L l) /\ (forall n, unlisted L n -> m (Nx n) = Nul).
Proof.
  intro X. destruct (execs_sim sexec sspec (LR Nul) ssim os none L rs sinit X init_LR) as (m & A & B). exists m. split; auto. split.
  - intros l k K. apply links_ok with Nul; try discriminate; auto. apply (lC _ _ _ B).
  - apply (lU _ _ _ B).
Qed.
Print Assumptions C67_stack.
(** __dllist: the lists are rings in both directions, opened at the head. *)
Theorem C67_dllist os L rs : runs dspec none os L rs -> exists h, execs dexec Collections.Model.init os = Some (h, rs) /\
  (forall l, Collections.Model.root h l = hd_error (L l)) /\
  (forall l u x v, L l = u ++ x :: v -> Collections.Model.nxt h x = Some (hd (hd x u) v) /\ Collections.Model.bck h x = Some (match u with [] => List.last v x | _ => List.last u x end)) /\
  (forall n, unlisted L n -> Collections.Model.nxt h n = None /\ Collections.Model.bck h n = None).
Proof.
  intro X. destruct (execs_sim dexec dspec _ dsim os none L rs _ X init_RD) as (h & A & B). exists h. split; auto. split; [|split].
  - intro l. apply (d_get h L l B).
  - intros l u x v E. destruct (d_get h L l B) as (_ & K & _). rewrite E in K. split; [now apply rg_next|now apply rg_prev].
  - apply (rU _ _ _ _ _ B).
Qed.
Print Assumptions C67_dllist.
(** The check in push does not catch every node already in a stack: the bottom node has a null link, and pushing it again makes the stack a ring. *)
Theorem C67_stack_check_gap m l a b : m (Hd l) = At b -> m (Nx b) = At a -> m (Nx a) = Nul -> a <> b ->
  exists m', push m l a = Some m' /\ forall k, length (links m' (Hd l) k) = k.
Proof.
  intros A B C N. unfold push. rewrite C, A. cbn [ptreq check]. eexists. split; [reflexivity|]. set (m' := upd _ _ _).
  assert (E : m' (Nx a) = At b /\ m' (Nx b) = At a /\ m' (Hd l) = At a) by (unfold m'; repeat split; now lu). clearbody m'. destruct E as (E1 & E2 & E3).
  assert (G : forall k, length (links m' (Nx a) k) = k /\ length (links m' (Nx b) k) = k).
  { induction k as [|k [I1 I2]]; [split; reflexivity|]. cbn [links]. rewrite E1, E2. cbn [length]. split; f_equal; auto. }
  intros [|k]; auto. cbn [links]. rewrite E3. cbn [length]. f_equal. apply G.
Qed.
Print Assumptions C67_stack_check_gap.
Example C67_ex : match execs qexec init [Append 0 1; Append 0 2; Append 1 9; Append 0 3; RemoveAt 0 2; Append 0 4; PopHead 0; Peek 0; PopHead 1; PopHead 1; NonEmpty 1] with
  | Some (h, rs) => rs = [RVoid; RVoid; RVoid; RVoid; RNode (Some 3); RVoid; RNode (Some 1); RNode (Some 2); RNode (Some 9); RNode None; RBool false] /\ links (mem h) (Hd 0) 9 = [2; 4] /\ tl h 0 = Nx 4
  | None => False end.
Proof. vm_compute. repeat split. Qed.
Example C67_ex_d : match execs dexec Collections.Model.init [PushFront 0 1; PushFront 0 2; PushFront 0 3; Move 0 1 2; Move 0 0 1; DRemove 1 2] with
  | Some (h, rs) => Collections.Model.root h 0 = Some 1 /\ Collections.Model.nxt h 1 = Some 3 /\ Collections.Model.bck h 1 = Some 3 /\ Collections.Model.nxt h 3 = Some 1 /\ Collections.Model.root h 1 = None /\ Collections.Model.nxt h 2 = None
  | None => False end.
Proof. vm_compute. repeat split. Qed.
