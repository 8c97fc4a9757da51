(** C22, C23, C24, C63: channels. *)
From Coq Require Import List Bool Arith Lia Permutation.
From Verif.Channel Require Import Model Spec Proofs.
Import ListNotations.

(** C22: for every history of insert, remove, try_, flush, close and the closed-channel routines, by any threads, on a
    channel of any capacity: the elements delivered, then those in the buffer, are exactly the elements accepted, in
    order.  (waituntil writes are included; waituntil reads as well if there are no waituntil writes or the capacity is 0.) *)
Theorem C22_fifo_exactly_once : forall T n (os : list (op T)),
  n = 0 \/ no is_reg_read os = true \/ no is_reg_write os = true ->
  let (c, l) := run (init n) os in puts l = gots l ++ contents c.
Proof.
  intros T n os H. destruct (run_good os (init n) (init_inv n)) as [_ F]. unfold fifo in F.
  destruct (run (init n) os) as [c l]. apply F. destruct H as [H|[H|H]]; auto. right; right. split; auto. constructor.
Qed.
Print Assumptions C22_fifo_exactly_once.
(** For all histories, with any waituntil operations: nothing is lost, nothing is delivered twice. *)
Theorem C22_nothing_lost_or_duplicated : forall T n (os : list (op T)),
  let (c, l) := run (init n) os in Permutation (puts l) (gots l ++ contents c).
Proof.
  intros T n os. destruct (run_good os (init n) (init_inv n)) as [(_ & P & _) _]. destruct (run (init n) os) as [c l]. exact P.
Qed.
Print Assumptions C22_nothing_lost_or_duplicated.
(** Every element delivered was actually put in (no uninitialised buffer cell is read). *)
Theorem C22_only_real_elements : forall T n (os : list (op T)) v,
  In v (gots (snd (run (init n) os))) -> exists k i x, v = Some x /\ In (Put k i x) (snd (run (init n) os)).
Proof.
  intros T n os v H. destruct (run_good os (init n) (init_inv n)) as [(_ & P & _) _]. destruct (run (init n) os) as [c l]; cbn [fst snd] in *.
  change (contents (init n)) with (@nil (option T)) in P. cbn [app] in P.
  assert (In v (puts l)) as Hp by (eapply Permutation_in; [symmetry; exact P|apply in_or_app; auto]).
  unfold puts in Hp. apply in_flat_map in Hp as (e & He & Hv). destruct e; try contradiction. destruct Hv as [<-|[]]. eauto.
Qed.
Print Assumptions C22_only_real_elements.
(** Plain threads blocked as consumers (producers) are resumed in arrival order, the others are still queued. *)
Theorem C22_arrival_order : forall T n (os : list (op T)), let (c, l) := run (init n) os in
  blockedC l = resumedC l ++ plainC (cons c) /\ blockedP l = resumedP l ++ plainP (prods c).
Proof.
  intros T n os. destruct (run_good os (init n) (init_inv n)) as [(_ & _ & P & C & _) _]. destruct (run (init n) os) as [c l]. auto.
Qed.
Print Assumptions C22_arrival_order.
Definition history : list (op nat) :=
  [Insert 1 10; Insert 2 20; Insert 3 30; Remove 4; TryInsert 5 50; Remove 4; Remove 6; Remove 7; Remove 8; Insert 9 90; Insert 9 91; Insert 9 92; Close].
Example C22_example : let (c, l) := run (init 2) history in
  gots l = map Some [10; 20; 30; 90; 91] /\ contents c = [Some 92] /\ puts l = map Some [10; 20; 30; 90; 91; 92]
  /\ blockedP l = [(3, Some 30)] /\ blockedC l = [7; 8] /\ resumedC l = [7; 8].
Proof. vm_compute. auto 10. Qed.

(** C23: bounds and blocking discipline, in every reachable state. *)
Theorem C23_blocking_discipline : forall T n (os : list (op T)), let c := fst (run (init n) os) in
  size c = n /\ length (contents c) = count c /\ count c <= n /\
  (prods c <> [] -> count c = n /\ cons c = []) /\ (cons c <> [] -> count c = 0 /\ prods c = []).
Proof.
  intros T n os. destruct (run_good os (init n) (init_inv n)) as [((R & I1 & I2 & I3) & _ & _ & _ & Hs & _) _].
  cbn zeta. set (c := fst (run (init n) os)) in *. change (size (init n)) with n in Hs. rewrite <- Hs.
  split; auto. split; [apply contents_length|]. split; [apply R|]. split; auto.
  intros H. split; auto. destruct (prods c) eqn:E; auto. destruct I1 as [_ I1]; [discriminate|]. congruence.
Qed.
Print Assumptions C23_blocking_discipline.
(** Each operation, in each reachable state: a producer blocks only when the buffer is full and no consumer is left,
    a consumer only when there is no element and (capacity 0) no producer left. *)
Theorem C23_blocks_only_if_needed : forall T n (os : list (op T)) i v, let c := fst (run (init n) os) in
  (In (BlockP false i v) (snd (insert c i v)) -> count c = n /\ Forall (fun m => isor m = true /\ won c (who m) = true) (cons c) /\ closed c = false) /\
  (In (BlockC false i) (snd (remove c i)) -> count c = 0 /\ Forall (fun m => isor m = true /\ won c (who m) = true) (prods c) /\ closed c = false).
Proof.
  intros T n os i v c. destruct (C23_blocking_discipline T n os) as (Hs & _ & _ & I1 & I2). fold c in Hs, I1, I2.
  assert (forall A w (q : list (node A)) w', settle w q = (w', []) -> Forall (fun m => isor m = true /\ w (who m) = true) q) as K.
  { induction q as [|m q IH]; intros w' H; [constructor|]. cbn in H. destruct (isor m) eqn:E1; [|discriminate]. destruct (w (who m)) eqn:E2; [|discriminate].
    constructor; eauto. }
  split.
  - unfold insert. destruct (closed c); [intros [E|[]]; discriminate|]. unfold put_or. destruct (settle (won c) (cons c)) as [w [|m r]] eqn:E.
    + destruct (Nat.eqb_spec (count (with_cons c w [])) (size (with_cons c w []))) as [Ec|Ec].
      * intros _. cbn in Ec. split; [congruence|]. split; eauto.
      * intros [Z|[]]; discriminate.
    + intros [Z|[Z|[]]]; discriminate.
  - unfold remove. destruct (closed c); [intros [E|[]]; discriminate|]. unfold get_or.
    assert (forall c1 : chan T, In (BlockC false i) (snd (do_remove false c1 i)) -> False) as D.
    { intros c1. unfold do_remove. destruct (_ && _); [destruct (settle _ _) as [w [|m r]]|]; cbn; intuition discriminate. }
    destruct (Nat.eqb_spec (size c) 0) as [Hz|Hz].
    + destruct (settle (won c) (prods c)) as [w [|m r]] eqn:E.
      * destruct (Nat.eqb_spec (count (with_prods c w [])) 0) as [Ec|Ec]; [|intros Z; destruct (D _ Z)].
        intros _. cbn in Ec. split; auto. split; eauto.
      * intros [Z|[Z|[]]]; discriminate.
    + destruct (Nat.eqb_spec (count c) 0) as [Ec|Ec]; [|intros Z; destruct (D _ Z)].
      intros _. split; auto. split; auto. destruct (prods c) eqn:Ep; auto. destruct I1; [discriminate|]. congruence.
Qed.
Print Assumptions C23_blocks_only_if_needed.
Example C23_example : let c := fst (run (init 2) (firstn 3 history)) in
  count c = 2 /\ prods c = [N 3 false 30] /\ snd (insert c 8 80) = [BlockP false 8 80] /\ snd (remove c 9) = [Got (Self false) 9 (Some 10); Put (Queued false) 3 30].
Proof. vm_compute. auto. Qed.

(** C24: once closed, nobody is blocked, ever; every thread blocked before was resumed. *)
Theorem C24_nobody_stranded : forall T n (os1 os2 : list (op T)), let (c, l) := run (init n) (os1 ++ Close :: os2) in
  closed c = true /\ prods c = [] /\ cons c = [] /\ blockedC l = resumedC l /\ blockedP l = resumedP l.
Proof.
  intros T n os1 os2. destruct (run_good (os1 ++ Close :: os2) (init n) (init_inv n)) as [((_ & _ & _ & I) & _ & P & C & _) _].
  assert (closed (fst (run (init n) (os1 ++ Close :: os2))) = true) as Hc.
  { assert (forall (c : chan T), Inv c -> closed (fst (run c (os1 ++ Close :: os2))) = true) as K; [|apply K, init_inv].
    clear. induction os1 as [|o os IH]; intros c Ic; cbn [app run].
    - destruct (step_good c Close Ic) as [[I1 _] _]. assert (closed (fst (step c Close)) = true) as Hcl by (cbn [step]; unfold close; destruct (drain _ _), (drain _ _); auto).
      destruct (step c Close) as [c1 l1]. pose proof (closed_stays os2 c1 I1 Hcl). destruct (run c1 os2). auto.
    - destruct (step_good c o Ic) as [[I1 _] _]. destruct (step c o) as [c1 l1]. specialize (IH c1 I1). destruct (run c1 (os ++ _)). auto. }
  destruct (run (init n) (os1 ++ Close :: os2)) as [c l]; cbn [fst snd] in *. destruct (I Hc) as [Ep Ec]. rewrite Ep, Ec in *.
  cbn in P, C. rewrite app_nil_r in P, C. auto 10.
Qed.
Print Assumptions C24_nobody_stranded.
(** On a closed channel an insert accepts nothing (and throws, unless a resumption handler supplies an element);
    remaining elements are still delivered, oldest first. *)
Theorem C24_closed_insert_refused : forall T (c : chan T) i v, closed c = true ->
  insert c i v = (c, [Closed false i]) /\ closed_insert c i None = (c, [Throw i]).
Proof. intros T c i v H. unfold insert. rewrite H. auto. Qed.
Print Assumptions C24_closed_insert_refused.
Theorem C24_remaining_elements_removable : forall T n (os : list (op T)) i v r, let c := fst (run (init n) os) in
  closed c = true -> contents c = v :: r ->
  snd (closed_remove c i true) = [Got (Self false) i v] /\ contents (fst (closed_remove c i true)) = r /\ snd (try_remove c i) = [Got (Self false) i v].
Proof.
  intros T n os i v r c H E. destruct (run_good os (init n) (init_inv n)) as [(I & _) _]. exact (closed_reads c i I H v r E).
Qed.
Print Assumptions C24_remaining_elements_removable.
Example C24_example : let c := fst (run (init 2) history) in closed c = true /\ contents c = [Some 92]
  /\ snd (run c [Insert 1 5; ClosedInsert 1 None; Remove 2; ClosedRemove 2 true; ClosedRemove 3 true]) =
     [Closed false 1; Throw 1; Closed false 2; Got (Self false) 2 (Some 92); Throw 3].
Proof. vm_compute. auto. Qed.

(** C63, full statement: an OR waituntil completes at most one clause, channel order is unaffected by waituntil, and a
    waituntil never hangs on its own clauses.
    First part: true for every history without flush (including losing to clauses elsewhere). *)
Theorem C63_one_clause_partial : forall T n (os : list (op T)) i, no is_flush os = true -> completions i (snd (run (init n) os)) <= 1.
Proof.
  intros T n os i H. pose proof (run_gain os (init n) H (init_inv n) i) as G. destruct (won (fst (run (init n) os)) i); cbn in G; lia.
Qed.
Print Assumptions C63_one_clause_partial.
(** flush hands the element to a waituntil that another clause has already decided. *)
Theorem C63_flush_refuted : exists (os : list (op nat)) i, no is_flush os = false /\ won (fst (run (init 1) (removelast os))) i = true
  /\ In (Got (Queued true) i (Some 7)) (snd (run (init 1) os)).
Proof. exists [RegRead 1; OtherWins 1; Flush 2 7], 1. vm_compute. auto 10. Qed.
Print Assumptions C63_flush_refuted.
(** A waituntil read takes the element of a blocked waituntil writer, overtaking the elements in the buffer. *)
Theorem C63_channel_order_refuted : exists n (os : list (op nat)), 
  let (c, l) := run (init n) os in puts l = map Some [1; 2] /\ gots l = map Some [2] /\ contents c = map Some [1].
Proof. exists 1, [Insert 10 1; RegWrite 11 2; RegRead 12]. vm_compute. auto. Qed.
Print Assumptions C63_channel_order_refuted.
(** Reading and writing the same channel in one OR waituntil spins for ever (with the channel lock held). *)
Theorem C63_same_channel_hangs_refuted : exists n (os : list (op nat)), In (Hang 5) (snd (run (init n) os)).
Proof. exists 0, [RegRead 5; RegWrite 5 1]. vm_compute. auto. Qed.
Print Assumptions C63_same_channel_hangs_refuted.
Example C63_example : let os : list (op nat) := [RegRead 1; RegRead 2; Remove 3; OtherWins 1; Insert 9 50; Unreg 1; Insert 9 60; RegWrite 4 70; Close; Unreg 4] in
  snd (run (init 0) os) = [BlockC true 1; BlockC true 2; BlockC false 3; Put (Self false) 9 50; Got (Queued true) 2 (Some 50);
    Put (Self false) 9 60; Got (Queued false) 3 (Some 60); BlockP true 4 70; ShutP true 4 70].
Proof. vm_compute. auto. Qed.
