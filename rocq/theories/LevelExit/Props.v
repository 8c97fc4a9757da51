(** C97: break, continue and fallthrough, with and without labels, become gotos. *)
From Coq Require Import ZArith List Bool Arith Lia.
From Verif.LevelExit Require Import Model Spec Proofs.
Import ListNotations.
Section P.
Context {st : Type}.
Variable acts : nat -> st -> st.
Variable tests : nat -> st -> bool.
Variable vals : nat -> st -> Z.
(** The C code of an accepted program ends as the program does: in the same state, with no jump left over. *)
Theorem C97_refines kids c : forallb wf kids = true -> translate kids = Some c -> forall n x r x1, srun acts tests vals n kids x = Some (r, x1) ->
  r = Go /\ exists m, forall m', m <= m' -> run acts tests vals m' [c] [c] x = Some (N, x1).
Proof.
  intros W E n x r x1 H. unfold translate in E. destruct (tr (Block [] kids) [] (St 0 [] None)) as [[c' s']|] eqn:Q; [|discriminate]. injection E as ->.
  assert (S1 : s_one acts tests vals n (Block [] kids) x = Some (leaves [] r, x1)) by (cbn [s_one]; rewrite H; reflexivity). rewrite leaves_nil in S1.
  pose proof (sim acts tests vals n) as [HP HQ]. destruct (K_all acts tests vals n HP HQ (Block [] kids) [] (St 0 [] None) c s' x r x1 W Q eq_refl (Forall_nil _) S1) as (m & o & R1 & A).
  assert (B : brk s' = None) by (eapply plain_brk; [|exact Q|reflexivity]; reflexivity). rewrite B in A. destruct r as [|b]; cbn [agree] in A; [|destruct A as (l & Z & _); destruct b as [[?|]|[?|]| |]; discriminate].
  split; [reflexivity|]. destruct A as [->|(l & Z & _)]; [|discriminate]. exists (S (S m)). intros m' L. eapply run_mono; [exact L|]. apply run_one; [|exact R1]. exact (proj2 (tr_stat _ _ _ _ _ Q)).
Qed.
(** What the C code does does not depend on the fuel. *)
Theorem C97_deterministic c x n m y z : run acts tests vals n [c] [c] x = Some y -> run acts tests vals m [c] [c] x = Some z -> y = z.
Proof. intros A B. assert (A' := run_mono acts tests vals n (n + m) [c] [c] x y ltac:(lia) A). assert (B' := run_mono acts tests vals m (n + m) [c] [c] x z ltac:(lia) B). congruence. Qed.
(** A clause of a choose that goes to its end leaves it. *)
Theorem C97_choose ls c cases v b r n x x1 : select (vals c x) cases = (v, Some b) :: r -> srun acts tests vals n b x = Some (Go, x1) -> exists m, srun acts tests vals m [choose ls c cases] x = Some (Go, x1).
Proof. apply choose_case. Qed.
End P.
Print Assumptions C97_refines. Print Assumptions C97_deterministic. Print Assumptions C97_choose.
(** The labels of the C code are distinct, and every goto has its label. *)
Theorem C97_labels kids c : forallb wf kids = true -> forallb one_default kids = true -> translate kids = Some c -> NoDup (labels c) /\ incl (gotos c) (labels c).
Proof.
  intros W O E. unfold translate in E. destruct (tr (Block [] kids) [] (St 0 [] None)) as [[c' s']|] eqn:Q; [|discriminate]. injection E as ->.
  destruct (labs_all (Block [] kids) [] _ _ _ W O Q eq_refl (Forall_nil _)) as (N1 & _ & G). split; [exact N1|]. intros l Hl. destruct (G l Hl) as [_ [D|[D|(b & D)]]]; [exact D| |destruct b as [[?|]|[?|]| |]; discriminate].
  assert (B : brk s' = None) by (eapply plain_brk; [|exact Q|reflexivity]; reflexivity). congruence.
Qed.
Print Assumptions C97_labels.
(** Accepted are the programs whose branches all have something to go to. *)
Theorem C97_accepts kids : (exists c, translate kids = Some c) <-> forallb (fun y => legal y top) kids = true.
Proof.
  assert (R0 : R [] top) by (intros b; destruct b as [[l|]|[l|]| |]; reflexivity). assert (Q := acc_all (Block [] kids) [] (St 0 [] None) top R0). change (legal (Block [] kids) top) with (forallb (fun y => legal y top) kids) in Q. rewrite <- Q. unfold translate. destruct (tr (Block [] kids) [] (St 0 [] None)) as [[c s']|].
  - split; eauto.
  - split; [intros (z & Z); discriminate|intros (z & Z); discriminate].
Qed.
Print Assumptions C97_accepts.

(** The state of the examples: the actions that have been done. Action n: write n; test n: fewer than n actions; value: the number of actions. *)
Definition ac (n : nat) (x : list nat) : list nat := x ++ [n].
Definition te (n : nat) (x : list nat) : bool := length x <? n.
Definition va (_ : nat) (x : list nat) : Z := Z.of_nat (length x).
(** A compound statement with a label that is the body of a loop: its break leaves the loop: while (fewer than 4) L: { 1; break L; } writes 1 four times, the C code writes it once.
    The body of a loop may be any statement; the parser puts it in a block only if it is not a compound statement (src/Parser/StatementNode.cpp:471-479), so the label that the compound statement leaves in break_label (MultiLevelExit.cpp:201-207) is put after the loop (692-694). *)
Definition body_label : list stmt := [Loop [] false 4 None (Block [7] [Act 1; Br (B (Some 7))]) None].
Theorem C97_body_refuted : exists c x1 x2, translate body_label = Some c /\ srun ac te va 20 body_label [] = Some (Go, x1) /\ run ac te va 20 [c] [c] [] = Some (N, x2) /\ x1 = [1; 1; 1; 1] /\ x2 = [1].
Proof. eexists _, _, _. repeat split; vm_compute; reflexivity. Qed.
Print Assumptions C97_body_refuted.
(** And with a break of the loop in it the label is not there at all: the C code has a goto without label. *)
Definition lost_label : list stmt := [Loop [] false 4 None (Block [7] [Act 1; If [] 2 (Block [] [Br (B (Some 7))]) None; Br (B None)]) None].
Theorem C97_lost_refuted : exists c, translate lost_label = Some c /\ forallb one_default lost_label = true /\ ~ incl (gotos c) (labels c).
Proof. eexists. split; [vm_compute; reflexivity|]. split; [reflexivity|]. intros H. destruct (H 2 (or_introl eq_refl)) as [Z|[]]. discriminate Z. Qed.
Print Assumptions C97_lost_refuted.
(** And if it is the first branch of an if statement, its label is put into the else branch, after the first statement of that: if (c) L: { 1; break L; } else { 2; 3; } goes from 1 to 3. *)
Definition lost_if : list stmt := [If [] 1 (Block [7] [Act 1; Br (B (Some 7))]) (Some (Block [] [Act 2; Act 3]))].
Theorem C97_if_refuted : translate lost_if = Some (CBlk [CIf 1 (CBlk [CAct 1; CGoto 0]) (Some (CBlk [CAct 2; CLab 0; CAct 3]))]) /\ srun ac te va 9 lost_if [] = Some (Go, [1]).
Proof. split; vm_compute; reflexivity. Qed.
Print Assumptions C97_if_refuted.

(** Two loops: continue of the outer, break of the outer, break and continue of the inner. *)
Definition loops : list stmt := [Loop [1] false 9 (Some 100) (Block [] [Act 5;
  Loop [] false 20 None (Block [] [Act 6; If [] 3 (Block [] [Br (K None)]) None; If [] 5 (Block [] [Br (K (Some 1))]) None; If [] 8 (Block [] [Br (B None)]) None; Br (B (Some 1))]) None; Act 7]) (Some (Block [] [Act 8])); Act 9].
Example C97_loops_example : exists c, translate loops = Some c /\ forallb wf loops = true /\ srun ac te va 40 loops [] = Some (Go, [5; 6; 6; 100; 5; 6; 7; 100; 5; 6; 9]) /\ run ac te va 60 [c] [c] [] = Some (N, [5; 6; 6; 100; 5; 6; 7; 100; 5; 6; 9]) /\ labels c = [3; 2; 1; 0].
Proof. eexists. repeat split; vm_compute; reflexivity. Qed.
(** The else clause of a loop is run when the condition fails; a break in it leaves the loop around. *)
Definition loop_else : list stmt := [Loop [] false 9 None (Block [] [Act 1; Loop [] true 3 None (Block [] [Act 2]) (Some (Block [] [Act 3; Br (B None)])); Act 4]) None; Act 5].
Example C97_else_example : exists c, translate loop_else = Some c /\ srun ac te va 40 loop_else [] = Some (Go, [1; 2; 2; 3; 5]) /\ run ac te va 60 [c] [c] [] = Some (N, [1; 2; 2; 3; 5]).
Proof. eexists. repeat split; vm_compute; reflexivity. Qed.
(** Clauses: fallthrough, fallthrough default, from within a loop too, break. *)
Definition clauses1 (k : stmt) : list stmt := [choose [1] 0 [(Some 0%Z, None); (Some 1%Z, Some [Act 10; k; Act 11]); (Some 2%Z, Some [Act 12]); (None, Some [Act 13]); (Some 3%Z, Some [Act 14])]; Act 15].
Example C97_clauses_example :
  srun ac te va 40 (clauses1 (Act 0)) [] = Some (Go, [10; 0; 11; 15]) /\ srun ac te va 40 (clauses1 (Br F)) [] = Some (Go, [10; 12; 15]) /\
  srun ac te va 40 (clauses1 (Loop [] false 9 None (Block [] [Br FD]) None)) [] = Some (Go, [10; 13; 15]) /\ srun ac te va 40 (clauses1 (Br (B (Some 1)))) [] = Some (Go, [10; 15]) /\
  forallb (fun k => match translate (clauses1 k) with Some c => match run ac te va 60 [c] [c] [] with Some (N, x) => match srun ac te va 40 (clauses1 k) [] with Some (Go, y) => if list_eq_dec Nat.eq_dec x y then true else false | _ => false end | _ => false end | None => false end)
    [Act 0; Br F; Loop [] false 9 None (Block [] [Br FD]) None; Br (B (Some 1)); Br (B None)] = true.
Proof. repeat split; vm_compute; reflexivity. Qed.
(** fallthrough default after the default clause, continue of a block and break of nothing are errors. *)
Example C97_accepts_example :
  translate [Switch [] 0 [(None, [Act 1]); (Some 1%Z, [Br FD])]] = None /\ translate [Block [1] [Br (K (Some 1))]] = None /\ translate [Br (B None)] = None /\ translate [Block [1] [Br (B None)]] = None /\
  translate [Switch [] 0 [(Some 1%Z, [Br FD])]] = None /\ translate [Loop [] false 0 None (Block [] []) (Some (Block [] [Br (K None)]))] = None.
Proof. repeat split. Qed.
