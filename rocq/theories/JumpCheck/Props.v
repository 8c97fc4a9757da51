(** C101 Jumps do not cross constructions *)
From Coq Require Import List Bool Arith Lia.
From Verif.JumpCheck Require Import Model Spec Proofs.
Import ListNotations.
(** A function and those nested in it are accepted iff no jump of them enters the scope of an object that the jump is not in the scope of *)
Theorem C101_exact body : well_formed body -> (accepted body = true <-> forall f, In f (functions body) -> ~ crosses f).
Proof.
  intros W. split; [intros A f F; now apply (accepted_sound body)|]. intros H. destruct (accepted body) eqn:A; [reflexivity|]. exfalso. destruct (accepted_complete _ A) as [f [F C]]. exact (H f F C).
Qed.
Print Assumptions C101_exact.
(** In executions of an accepted function the objects alive are at every point exactly those in scope, in the order of their declarations.
    The full statement has no condition on computed jumps *)
Theorem C101_live_partial body f tr z live : well_formed body -> accepted body = true -> In f (functions body) -> forallb simple_jumps f = true -> exec f tr z live -> live = scope z.
Proof. intros W A F SJ E. pose proof (nested_nodup _ _ (proj1 W) F) as N. eapply exec_live; eauto. now apply (accepted_sound body). Qed.
Print Assumptions C101_live_partial.
(** Each object is constructed only when it is not alive *)
Theorem C101_fresh_partial body f tr z live z' c o : well_formed body -> accepted body = true -> In f (functions body) -> forallb simple_jumps f = true ->
  exec f tr z live -> step f z z' c -> In o c -> ~ In o live.
Proof. intros W A F SJ E S0 I. pose proof (nested_nodup _ _ (proj1 W) F) as N. eapply exec_fresh; eauto. now apply (accepted_sound body). Qed.
Print Assumptions C101_fresh_partial.
(** Constructions and destructions alternate: at every point as many, but one construction more for the objects in scope; as many when the function is left *)
Theorem C101_balance_partial body f tr z live o : well_formed body -> accepted body = true -> In f (functions body) -> forallb simple_jumps f = true ->
  exec f tr z live -> cnt (isC o) tr = cnt (isD o) tr + (if inb o (scope z) then 1 else 0).
Proof.
  intros W A F SJ E. pose proof (nested_nodup _ _ (proj1 W) F) as N. rewrite (exec_count _ _ _ _ o E). f_equal. rewrite (exec_live f tr z live N SJ (accepted_sound body f W A F) E). apply num_nodup. eapply subl_nodup; [|exact N].
  apply subl_scope. eapply exec_pos; eauto.
Qed.
Print Assumptions C101_balance_partial.
Theorem C101_left_partial body f tr live o : well_formed body -> accepted body = true -> In f (functions body) -> forallb simple_jumps f = true ->
  exec f tr [] live -> live = [] /\ cnt (isC o) tr = cnt (isD o) tr.
Proof.
  intros W A F SJ E. split; [now apply (C101_live_partial body f tr [] live)|]. rewrite (C101_balance_partial body f tr [] live o W A F SJ E). cbn. lia.
Qed.
Print Assumptions C101_left_partial.
(** { L1: T x; { T y; if (p) goto L1; if (q) goto L2; } goto L3; L2: ; } L3 is before T z; void f() { goto L1; T w... } *)
Definition ex := [Decl [1] 0; Block [] [Decl [] 1; If [] [Goto [] 1] []; If [] [Goto [] 2] []]; Fun [] [Decl [] 5; Simple [2]; Goto [] 2]; Simple [2]; Simple []].
Example C101_ex_ok : accepted ex = true /\ forallb simple_jumps ex = true /\ well_formed ex.
Proof.
  repeat split; try reflexivity.
  - cbn. repeat constructor; cbn; intuition lia.
  - cbn. intros f [<-|[<-|[]]]; cbn; repeat constructor; cbn; intuition lia.
Qed.
(** back to L1: y and x are destroyed, in this order, then x is constructed again *)
Example C101_ex_run : exists z, exec ex [EC 0; EC 1; ED 1; ED 0; EC 0] z [0].
Proof.
  pose proof (e_start ex) as E.
  unfold ex at 2 in E. pose proof (e_step _ _ _ _ _ _ E (s_decl _ _ _ _ _ _)) as E1. cbn in E1.
  pose proof (e_step _ _ _ _ _ _ E1 (s_block _ _ _ _ _ _)) as E2. cbn in E2.
  pose proof (e_step _ _ _ _ _ _ E2 (s_decl _ _ _ _ _ _)) as E3. cbn in E3.
  pose proof (e_step _ _ _ _ _ _ E3 (s_then _ _ _ _ _ _ _)) as E4. cbn in E4.
  assert (P : pos ex [([], ex)]) by now apply pos_top.
  assert (L : labelled 1 [([], ex)]) by (repeat eexists; now left).
  pose proof (e_step _ _ _ _ _ _ E4 (s_goto _ _ _ _ _ _ _ P L)) as E5. cbn in E5.
  pose proof (e_step _ _ _ _ _ _ E5 (s_decl _ _ _ _ _ _)) as E6. cbn in E6. eexists. exact E6.
Qed.
Example C101_ex_bad : accepted [Goto [] 2; Decl [] 0; Simple [2]] = false /\ accepted [Block [] [Decl [] 0; Simple [2]]; Goto [] 2] = false /\ accepted [Goto [] 2; Decl [2] 0] = true
  /\ accepted [Decl [] 0; Fun [] [Goto [] 2; Decl [] 5; Simple [2]]] = false.
Proof. repeat split. Qed.
(** Computed jumps are not checked *)
Theorem C101_computed_refuted : exists body tr z live o, well_formed body /\ accepted body = true /\ exec body tr z live /\ In o (scope z) /\ ~ In o live.
Proof.
  set (body := [Comp []; Decl [] 0; Simple [2]]). exists body, [], [([Comp []; Decl [] 0], [Simple [2]])], [], 0. repeat split.
  - cbn. repeat constructor; cbn; intuition lia.
  - cbn. intros f [<-|[]]; cbn; repeat constructor; cbn; intuition lia.
  - assert (P : pos body [([Comp []; Decl [] 0], [Simple [2]])]) by now apply pos_top.
    assert (L : labelled 2 [([Comp []; Decl [] 0], [Simple [2]])]) by (repeat eexists; now left).
    pose proof (e_step _ _ _ _ _ _ (e_start body) (s_comp _ _ _ _ _ _ _ P L)) as E. exact E.
  - now left.
  - auto.
Qed.
Print Assumptions C101_computed_refuted.
(** Objects that need no construction count too: jumps allowed in C are rejected *)
Theorem C101_plain_refuted : exists body (plain : nat -> bool), well_formed body /\ accepted body = false /\
  forall z o, pos body z -> In o (scope z) -> plain o = true.
Proof.
  set (body := [Goto [] 2; Decl [] 0; Simple [2]]). exists body, (Nat.eqb 0). repeat split.
  - cbn. repeat constructor; cbn; intuition lia.
  - cbn. intros f [<-|[]]; cbn; repeat constructor; cbn; intuition lia.
  - intros z o P I. apply (subl_in _ _ _ (pos_subl _ _ P)) in I. cbn in I. destruct I as [<-|[]]. reflexivity.
Qed.
Print Assumptions C101_plain_refuted.
