(** C10: the intrusive Stack, Queue and Sequence are lists. *)
From Coq Require Import List Bool Arith Lia.
From Verif.Collections Require Import Spec Model Rep ProofsQ ProofsSeq.
Import ListNotations.
(** running a history with any large enough bound on the loops *)
Lemma runs_sim (P : heap -> lists -> Prop) (ex : nat -> heap -> op -> option (heap * res)) (ok : op -> bool) :
  (forall k h L o L' r, P h L -> spec L o L' r -> ok o = true -> big L o k -> exists h', ex k h o = Some (h', r) /\ P h' L') ->
  forall os L0 L rs, runs L0 os L rs -> forallb ok os = true -> exists k0, forall k h0, k0 <= k -> P h0 L0 -> exists h, execs (ex k) h0 os = Some (h, rs) /\ P h L.
Proof.
  intros S. induction os as [|o os IH]; intros L0 L rs R F; inversion R as [|L0' o' L1 r os' L2 rs' R1 R2]; subst.
  - exists 0. intros k h0 _ P0. exists h0. auto.
  - cbn [forallb] in F. apply andb_true_iff in F as [F1 F2]. destruct (IH L1 L rs' R2 F2) as [k0 H].
    assert (Bg : exists k1, forall k, k1 <= k -> big L0 o k). { destruct o; try (exists 0; intros; exact I); exists (length (L0 l)); intros; cbn [big]; lia. }
    destruct Bg as [k1 Bg]. exists (k0 + k1). intros k h0 K P0. cbn [execs]. destruct (S k h0 L0 o L1 r P0 R1 F1) as (h1 & A & B); [apply Bg; lia|]. rewrite A.
    destruct (H k h1) as (h & C & D); [lia|auto|]. rewrite C. exists h; auto.
Qed.
(** Any history of permitted operations completes with the results the lists give; loops end. *)
Theorem C10_stack os L rs : runs none os L rs -> forallb stack_op os = true -> exists k0, forall k, k0 <= k -> exists h, execs (exec_stack k) init os = Some (h, rs).
Proof. intros R F. destruct (runs_sim (Rep lk hdS null) exec_stack stack_op sim_stack os none L rs R F) as [k0 H]. exists k0. intros k K. destruct (H k init K init_RS) as (h & A & _). eauto. Qed.
Print Assumptions C10_stack.
Theorem C10_queue os L rs : runs none os L rs -> forallb queue_op os = true -> exists k0, forall k, k0 <= k -> exists h, execs (exec_queue k) init os = Some (h, rs).
Proof. intros R F. destruct (runs_sim (Rep lk hdQ null) exec_queue queue_op sim_queue os none L rs R F) as [k0 H]. exists k0. intros k K. destruct (H k init K init_RQ) as (h & A & _). eauto. Qed.
Print Assumptions C10_queue.
Theorem C10_sequence os L rs : runs none os L rs -> exists k0, forall k, k0 <= k -> exists h, execs (exec_seq k) init os = Some (h, rs).
Proof.
  intros R. destruct (runs_sim (Rep rg hdS nul) exec_seq (fun _ => true)) with (os := os) (L0 := none) (L := L) (rs := rs) as [k0 H]; auto.
  - intros k h L1 o L2 r P S _. now apply sim_seq.
  - clear. induction os; auto.
  - exists k0. intros k K. destruct (H k init K init_RD) as (h & A & _). eauto.
Qed.
Print Assumptions C10_sequence.
(** At any point the contents met by an iterator are the list, forwards and, for a sequence, backwards. *)
Theorem C10_contents os L rs l : runs none os L rs ->
  (forallb stack_op os = true -> exists k0, forall k, k0 <= k -> exists h, execs (exec_stack k) init os = Some (h, rs) /\ s_iter h (root h l) k = Some (L l)) /\
  (forallb queue_op os = true -> exists k0, forall k, k0 <= k -> exists h, execs (exec_queue k) init os = Some (h, rs) /\ s_iter h (root h l) k = Some (L l)) /\
  (exists k0, forall k, k0 <= k -> exists h, execs (exec_seq k) init os = Some (h, rs) /\ d_iter h l (root h l) k = Some (L l) /\ d_iterRev h l (d_tail h l) k = Some (rev (L l))).
Proof.
  intro R. split; [|split].
  - intro F. destruct (runs_sim (Rep lk hdS null) exec_stack stack_op sim_stack os none L rs R F) as [k0 H]. exists (k0 + length (L l)). intros k K. destruct (H k init) as (h & A & B); [lia|apply init_RS|]. exists h. split; auto.
    pose proof (rH _ _ _ _ _ B l) as Hr. unfold hdS in Hr. rewrite Hr. apply s_iter_ok; [apply (rN _ _ _ _ _ B)|apply (rK _ _ _ _ _ B)|lia].
  - intro F. destruct (runs_sim (Rep lk hdQ null) exec_queue queue_op sim_queue os none L rs R F) as [k0 H]. exists (k0 + length (L l)). intros k K. destruct (H k init) as (h & A & B); [lia|apply init_RQ|]. exists h. split; auto.
    destruct (q_get h L l B) as (Hr & _ & Kk & N). rewrite Hr. apply s_iter_ok; auto. lia.
  - destruct (runs_sim (Rep rg hdS nul) exec_seq (fun _ => true)) with (os := os) (L0 := none) (L := L) (rs := rs) as [k0 H]; auto.
    + intros k h L1 o L2 r P S _. now apply sim_seq.
    + clear. induction os; auto.
    + exists (k0 + length (L l)). intros k K. destruct (H k init) as (h & A & B); [lia|apply init_RD|]. exists h. split; auto. destruct (d_get h L l B) as (Hr & _). rewrite Hr, (d_tail_ok h L l B). split.
      * apply (d_iter_ok h L l B (L l) []); auto. lia.
      * apply (d_iterRev_ok h L l B (rev (L l)) []); [now rewrite rev_involutive, app_nil_r|rewrite rev_length; lia].
Qed.
Print Assumptions C10_contents.
(** adding a node that is already in a list fails the check *)
Theorem C10_listed k h L l n l' : Rep rg hdS nul h L -> In n (L l) -> exec_seq k h (AddHead l' n) = None /\ exec_seq k h (AddTail l' n) = None.
Proof. intros R I. apply in_split in I as (u & v & E). pose proof (rK _ _ _ _ _ R l) as K. rewrite E in K. cbn [exec_seq]. unfold d_insertAft, d_insertBef. rewrite (d_listed_in h u n v K). auto. Qed.
Print Assumptions C10_listed.
Example C10_ex_stack : option_map snd (execs (exec_stack 9) init [AddHead 0 1; AddHead 0 2; AddHead 0 3; Elems 0; DropHead 0; Listed 3; Head 0; DropHead 0; DropHead 0; DropHead 0; Empty 0])
  = Some [RNode (Some 1); RNode (Some 2); RNode (Some 3); RList [3; 2; 1]; RNode (Some 3); RBool false; RNode (Some 2); RNode (Some 2); RNode (Some 1); RNode None; RBool true].
Proof. reflexivity. Qed.
Example C10_ex_queue : option_map snd (execs (exec_queue 9) init [AddTail 0 1; AddTail 0 2; AddTail 0 3; AddTail 1 4; AddTail 1 5; AddTail 1 6; Remove 0 2; Split 0 1 5; Elems 0; Elems 1; Tail 0; Transfer 1 0; Elems 1; DropTail 1; Succ 1 4])
  = Some [RNode (Some 1); RNode (Some 2); RNode (Some 3); RNode (Some 4); RNode (Some 5); RNode (Some 6); RNode (Some 2); RVoid; RList [1; 3; 4; 5]; RList [6]; RNode (Some 5); RVoid; RList [6; 1; 3; 4; 5]; RNode (Some 5); RNode None].
Proof. reflexivity. Qed.
Example C10_ex_seq : option_map snd (execs (exec_seq 9) init [AddTail 0 1; AddHead 0 2; InsBef 0 3 (Some 1); InsAft 0 (Some 1) 4; Elems 0; ElemsRev 0; Pred 0 3; Succ 0 4; Remove 0 2; AddTail 1 2; Split 1 0 3; Elems 1; Transfer 0 1; Elems 0; DropTail 0; Tail 0])
  = Some [RNode (Some 1); RNode (Some 2); RNode (Some 3); RNode (Some 4); RList [2; 3; 1; 4]; RList [4; 1; 3; 2]; RNode (Some 2); RNode None; RNode (Some 2); RNode (Some 2); RVoid; RList [2; 3]; RVoid; RList [1; 4; 2; 3]; RNode (Some 3); RNode (Some 2)].
Proof. reflexivity. Qed.
