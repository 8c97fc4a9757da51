(** C11, C12: intrusive doubly linked lists. *)
From Coq Require Import List Bool Arith Lia.
From Verif.DList Require Import Spec Model Proofs.
Import ListNotations.

(** running operations; the specification's lists after them, with the same results *)
Inductive runs : lists -> list op -> lists -> list res -> Prop :=
| runs_nil L : runs L [] L []
| runs_cons L o L1 r os L2 rs : spec L o L1 r -> runs L1 os L2 rs -> runs L (o :: os) L2 (r :: rs).
Fixpoint execs (h : heap) (os : list op) : option (heap * list res) :=
  match os with [] => Some (h, []) | o :: r => match exec h o with Some (h1, x) => match execs h1 r with Some (h2, xs) => Some (h2, x :: xs) | None => None end | None => None end end.
Lemma runs_rep os : forall L0 h0 L rs, Rep h0 L0 -> runs L0 os L rs -> exists h, execs h0 os = Some (h, rs) /\ Rep h L.
Proof.
  induction os as [|o os IH]; intros L0 h0 L rs R S; inversion S as [|L0' o' L1 r os' L2 rs' S1 S2]; subst; cbn [execs].
  - exists h0; auto.
  - destruct (simulation h0 L0 o L1 r R S1) as (h1 & A & B). rewrite A. destruct (IH L1 h1 L rs' B) as (h2 & C & D); auto. rewrite C. exists h2; auto.
Qed.
Definition none : lists := fun _ => [].
(** Any history of permitted operations on any number of lists completes with the results of the list operations. *)
Theorem C11_refines os L rs : runs none os L rs -> exists h, execs init os = Some (h, rs).
Proof. intro R. destruct (runs_rep os none init L rs init_rep R) as (h & A & _). eauto. Qed.
Print Assumptions C11_refines.
(** Afterwards every list walks forwards to its content and backwards to the reverse, in both directions ending at the list. *)
Theorem C11_walks os L rs h l k : runs none os L rs -> execs init os = Some (h, rs) -> length (L l) < k ->
  walk advance h (Orig l) k = (L l, true) /\ walk recede h (Orig l) k = (rev (L l), true).
Proof. intros R E K. destruct (runs_rep os none init L rs init_rep R) as (h' & A & B). assert (h' = h) as -> by congruence. split; [now apply walk_all|now apply walk_all_rev]. Qed.
Print Assumptions C11_walks.
(** An element is in at most one list, at most once, and is listed when in one; out of every list, both its links are null. *)
Theorem C11_membership os L rs h : runs none os L rs -> execs init os = Some (h, rs) ->
  (forall l, NoDup (L l)) /\ (forall l k n, In n (L l) -> In n (L k) -> l = k) /\ (forall l n, In n (L l) -> listed h n = true) /\
  (forall n, unlisted L n -> listed h n = false /\ next h n = None /\ prev h n = None).
Proof.
  intros R E. destruct (runs_rep os none init L rs init_rep R) as (h' & A & B). assert (h' = h) as -> by congruence.
  split; [apply (rN _ _ B)|]. split; [apply (rD _ _ B)|]. split.
  - intros l n I. destruct (simulation h L (Listed n) L (RBool true) B) as (h2 & C & _); [econstructor; eauto|]. cbn [exec] in C. congruence.
  - intros n U. unfold listed, next, prev, advance, recede. destruct (rU _ _ B n U) as [-> ->]. auto.
Qed.
Print Assumptions C11_membership.
(** The debug validators accept every list so reached. *)
Theorem C11_validates os L rs h l k : runs none os L rs -> execs init os = Some (h, rs) -> length (L l) < k ->
  validate advance (first h l) (last h l) h l k = true /\ validate recede (last h l) (first h l) h l k = true.
Proof.
  intros R E K. destruct (runs_rep os none init L rs init_rep R) as (h' & A & B). assert (h' = h) as -> by congruence. unfold validate.
  rewrite (rep_first h L l B), (rep_last h L l B), (walk_all h L l k B K), (walk_all_rev h L l k B K), rev_involutive.
  assert (O : forall x, onb x x = true) by (intros [x|]; cbn [onb]; [apply Nat.eqb_refl|reflexivity]).
  rewrite !O. split.
  - destruct (L l); reflexivity.
  - destruct (rev (L l)) as [|y ys] eqn:F; auto. assert (Z : L l = []) by (rewrite <- (rev_involutive (L l)), F; reflexivity). now rewrite Z.
Qed.
Print Assumptions C11_validates.
Lemma unl n : unlisted none n. Proof. intros l []. Qed.
Example C11_ex : execs init [InsLast 0 1; InsLast 0 2; InsFirst 0 3; InsBefore (Node 2) 4; InsFirst 1 5; Remove 1; Last 0; Prev 2; Next 2; RemFirst 0; Listed 3; InsAfter (Node 5) 3; Empty 1] =
  match execs init [InsLast 0 1; InsLast 0 2; InsFirst 0 3; InsBefore (Node 2) 4; InsFirst 1 5; Remove 1; RemFirst 0; InsAfter (Node 5) 3] with
  | Some (h, _) => Some (h, [RNode (Some 1); RNode (Some 2); RNode (Some 3); RNode (Some 4); RNode (Some 5); RNode (Some 1); RNode (Some 2); RNode (Some 4); RNode None; RNode (Some 3); RBool false; RNode (Some 3); RBool false])
  | None => None end.
Proof. reflexivity. Qed.
Example C11_ex_walk : match execs init [InsLast 0 1; InsLast 0 2; InsFirst 0 3; InsBefore (Node 2) 4; InsFirst 1 5; Remove 1] with
  | Some (h, _) => walk advance h (Orig 0) 9 = ([3; 4; 2], true) /\ walk recede h (Orig 0) 9 = ([2; 4; 3], true) /\ walk advance h (Orig 1) 9 = ([5], true)
  | None => False end.
Proof. repeat split. Qed.
(** putting an element already listed into a list fails the check *)
Example C11_ex_twice : execs init [InsLast 0 1; InsLast 1 1] = None. Proof. reflexivity. Qed.

(** C12: bool first( node ) and bool last( node ). Both are inverted: they say whether there is a neighbour on that side. *)
Theorem C12_actual h L l u x v : Rep h L -> L l = u ++ x :: v -> (is_first h x = true <-> u <> []) /\ (is_last h x = true <-> v <> []).
Proof.
  intros R E. unfold is_first, is_last. rewrite (rep_rec h L l u x v R E), (rep_adv h L l u x v R E). cbn [snd]. split.
  - destruct u as [|y u] using rev_ind; [cbn [rev]; split; congruence|]. rewrite rev_unit. split; auto. intros _ C. destruct u; discriminate.
  - destruct v; split; congruence.
Qed.
Print Assumptions C12_actual.
Theorem C12_first_refuted : exists os L rs h l x v, runs none os L rs /\ execs init os = Some (h, rs) /\ L l = x :: v /\ is_first h x = false.
Proof.
  eexists [InsLast 0 1; InsLast 0 2], _, _, _, 0, 1, [2]. split; [|split; [|split]].
  - eapply runs_cons; [apply s_il; apply unl|]. eapply runs_cons; [apply s_il|apply runs_nil]. intros l H. unfold set, none in H. destruct l; cbn in H; [destruct H as [H|[]]; discriminate|exact H].
  - reflexivity.
  - reflexivity.
  - reflexivity.
Qed.
Print Assumptions C12_first_refuted.
Theorem C12_last_refuted : exists os L rs h l u x, runs none os L rs /\ execs init os = Some (h, rs) /\ L l = u ++ [x] /\ is_last h x = false.
Proof.
  eexists [InsLast 0 1; InsLast 0 2], _, _, _, 0, [1], 2. split; [|split; [|split]].
  - eapply runs_cons; [apply s_il; apply unl|]. eapply runs_cons; [apply s_il|apply runs_nil]. intros l H. unfold set, none in H. destruct l; cbn in H; [destruct H as [H|[]]; discriminate|exact H].
  - reflexivity.
  - reflexivity.
  - reflexivity.
Qed.
Print Assumptions C12_last_refuted.
(** The element in the middle is reported both first and last. *)
Example C12_ex : match execs init [InsLast 0 1; InsLast 0 2; InsLast 0 3] with Some (h, _) => map (is_first h) [1; 2; 3] = [false; true; true] /\ map (is_last h) [1; 2; 3] = [true; true; false] | None => False end.
Proof. split; reflexivity. Qed.
