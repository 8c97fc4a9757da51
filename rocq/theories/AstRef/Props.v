From Coq Require Import List Bool Arith Lia.
From Verif.AstRef Require Import Model Spec Proofs.
Import ListNotations.
(** The counts of a node are the numbers of ptr and of readonly objects that refer to it. *)
Theorem C59_counts : forall sh s k n, wf sh -> reach sh s -> cnt s k n = count sh s k n.
Proof. intros sh s k n W H. rewrite count_refs, (I_cnt _ _ _ _ _ (reach_rest _ _ W H)). unfold nop. lia. Qed.
Print Assumptions C59_counts.
(** A pointer refers to a node that has not been deleted. *)
Theorem C59_no_dangling : forall sh s l n, wf sh -> reach sh s -> In l (locs sh) -> refers s l n -> alive s n = true /\ live sh s l = true.
Proof.
  intros sh s l n W H L C. pose proof (reach_rest _ _ W H) as I. split; [exact (live_in sh s [] nop [] l n I L (in_nil (a:=l)) C)|]. unfold live. destruct (owner sh l) as [o|] eqn:O; auto. destruct (alive s o) eqn:A; auto. exfalso. unfold refers in C. rewrite (I_field _ _ _ _ _ I l o L O A) in C; auto. discriminate.
Qed.
Print Assumptions C59_no_dangling.
(** A node is deleted once, and exactly when it has no reference of either kind, unless it is new or its last reference was given up by release. *)
Theorem C59_deleted : forall sh s n, wf sh -> reach sh s -> made s n = true ->
  freed s n = (if alive s n then 0 else 1) /\ (alive s n = false <-> (forall l, In l (locs sh) -> ~ refers s l n) /\ loose s n = false).
Proof.
  intros sh s n W H M. pose proof (reach_rest _ _ W H) as I. split; [rewrite (I_freed _ _ _ _ _ I), M; destruct (alive s n); auto|]. split.
  - intros A. split; [|eapply I_gone; eauto]. intros l L R. destruct (C59_no_dangling sh s l n W H L R). congruence.
  - intros [R Lo]. destruct (alive s n) eqn:A; auto. exfalso. assert (Z : zero s n = true).
    { apply zero_iff. intros k. rewrite (I_cnt _ _ _ _ _ I). unfold nop. rewrite Nat.add_0_r. destruct (refs sh s [] k n) eqn:E; auto. exfalso. assert (P : 0 < refs sh s [] k n) by lia. apply refs_pos in P. destruct P as (l & P1 & _ & _ & P2). apply (R l); auto. }
    apply (I_loose _ _ _ _ _ I n A) in Z. congruence.
Qed.
Print Assumptions C59_deleted.
(** Every operation on a location that stays reachable completes; the only failure is the assertion of mutate on a shared node with weak references. *)
Theorem C59_completes : forall sh s o, wf sh -> reach sh s -> can sh s o ->
  (exists s', step sh o s = Ok s') \/ (step sh o s = Abort /\ exists l n' n, o = Mutate l n' /\ refers s l n /\ 2 <= count sh s true n /\ 0 < count sh s false n).
Proof.
  intros sh s o W H C. pose proof (reach_rest _ _ W H) as I. destruct (step_ok sh s o W I C) as [(s' & E & _)|(E & l & n' & n & A & B & D & F)]; [eauto|]. right. split; auto. exists l, n', n. rewrite <- !C59_counts by auto. auto.
Qed.
Print Assumptions C59_completes.
(** What the operations store, and that every other pointer that still exists keeps its value. *)
Theorem C59_assign : forall sh s l x, wf sh -> reach sh s -> can sh s (Set_ l x) -> exists s', step sh (Set_ l x) s = Ok s' /\ cont s' l = x /\ forall y, y <> l -> live sh s' y = true -> cont s' y = cont s y.
Proof. intros sh s l x W H [A B]. destruct (assign_ok sh s l x W (reach_rest _ _ W H) B A) as (s' & E & Q). exists s'. split; auto. split; apply Q. Qed.
Print Assumptions C59_assign.
Theorem C59_drop : forall sh s l, wf sh -> reach sh s -> safe sh s [l] l -> exists s1 s2, step sh (Null l) s = Ok s1 /\ step sh (Destroy l) s = Ok s2 /\ cont s1 l = None /\ cont s2 l = None /\
  (forall y, y <> l -> live sh s1 y = true -> cont s1 y = cont s y) /\ (forall y, y <> l -> live sh s2 y = true -> cont s2 y = cont s y).
Proof.
  intros sh s l W H C. destruct (null_ok sh s l W (reach_rest _ _ W H) C) as (s1 & E1 & Q1). destruct (destroy_ok sh s l W (reach_rest _ _ W H) C) as (s2 & E2 & Q2). exists s1, s2. split; auto. split; auto. split; [apply Q1|]. split; [apply Q2|]. split; [apply Q1|apply Q2].
Qed.
Print Assumptions C59_drop.
Theorem C59_move : forall sh s l p, wf sh -> reach sh s -> can sh s (Move l p) -> exists s', step sh (Move l p) s = Ok s' /\ cont s' l = cont s p /\ (cont s l <> cont s p -> cont s' p = None) /\ forall y, y <> l -> y <> p -> live sh s' y = true -> cont s' y = cont s y.
Proof. intros sh s l p W H (A & B & C). destruct (move_ok sh s l p W (reach_rest _ _ W H) A B C) as (s' & E & _ & _ & _ & Q1 & Q2 & Q3 & _). exists s'. auto. Qed.
Print Assumptions C59_move.
Theorem C59_release : forall sh s l, wf sh -> reach sh s -> can sh s (Release l) -> exists s', step sh (Release l) s = Ok s' /\ cont s' l = None /\ (forall y, y <> l -> cont s' y = cont s y) /\ alive s' = alive s.
Proof. intros sh s l W H (A & B). destruct (release_ok sh s l W (reach_rest _ _ W H) A B) as (s' & E & _ & Q1 & Q2 & Q3 & _). exists s'. auto. Qed.
Print Assumptions C59_release.
Theorem C59_swap : forall sh s l p, wf sh -> reach sh s -> can sh s (Swap l p) -> exists s', step sh (Swap l p) s = Ok s' /\ cont s' l = cont s p /\ cont s' p = cont s l /\ (forall y, y <> l -> y <> p -> cont s' y = cont s y) /\ alive s' = alive s.
Proof. intros sh s l p W H (A & B & C & D & E & F). destruct (swap_ok sh s l p W (reach_rest _ _ W H) A B C D E F) as (s' & T & _ & Q1 & Q2 & Q3 & Q4 & _). exists s'. auto. Qed.
Print Assumptions C59_swap.
(** get_and_mutate of a node with two or more strong references makes a copy with the same fields and leaves the node and all other pointers alone. *)
Theorem C59_mutate_shared : forall sh s l n n', wf sh -> reach sh s -> can sh s (Mutate l n') -> refers s l n -> 2 <= count sh s true n -> count sh s false n = 0 ->
  exists s', step sh (Mutate l n') s = Ok s' /\ cont s' l = Some n' /\ made s n' = false /\ (forall p, In p (combine (fields sh n) (fields sh n')) -> cont s' (snd p) = cont s (fst p)) /\
    (forall y, y <> l -> ~ In y (fields sh n') -> live sh s' y = true -> cont s' y = cont s y).
Proof.
  intros sh s l n n' W H (S & N & M & n0 & R & K) R' C2 C0. assert (n0 = n) by (unfold refers in *; congruence). subst n0. rewrite <- !C59_counts in * by auto.
  destruct (mutate_ok sh s l n n' W (reach_rest _ _ W H) S N M R) as [(T & _)|[(_ & T & _)|(_ & _ & s' & E & _ & Q1 & Q2 & Q3 & _)]]; try lia. exists s'. cbn [step]. auto.
Qed.
Print Assumptions C59_mutate_shared.
(** Through a ptr a node is changed in place only when that ptr is its one strong reference. *)
Theorem C59_mutate_unique : forall sh s l n n' s', wf sh -> reach sh s -> can sh s (Mutate l n') -> refers s l n -> step sh (Mutate l n') s = Ok s' -> refers s' l n -> kind sh l = true ->
  forall y, In y (locs sh) -> kind sh y = true -> refers s y n -> y = l.
Proof.
  intros sh s l n n' s' W H (S & N & M & n0 & R & K) R' E Q KL y Y KY RY. assert (n0 = n) by (unfold refers in *; congruence). subst n0. pose proof (reach_rest _ _ W H) as I.
  assert (U : cnt s true n <= 1).
  { destruct (mutate_ok sh s l n n' W I S N M R) as [(T & _)|[(_ & _ & T)|(_ & _ & s2 & T & _ & T2 & _)]]; auto; [cbn [step] in E; congruence|]. cbn [step] in E. assert (s2 = s') by congruence. subst s2. unfold refers in Q. assert (n = n') by congruence. subst n'.
    assert (A : alive s n = true) by exact (live_in sh s [] nop [] l n I (proj1 S) (in_nil (a:=l)) R). apply (I_made _ _ _ _ _ I) in A. congruence. }
  destruct (Nat.eq_dec y l) as [|D]; auto. exfalso. rewrite (I_cnt _ _ _ _ _ I) in U. rewrite (refs_split sh s [] true n l (W_locs _ W) (proj1 S)) in U by auto. assert (NY : ~ In y [l]) by (intros [X|[]]; auto). rewrite (refs_split sh s [l] true n y (W_locs _ W) Y NY) in U.
  unfold hit, refers in *. rewrite R, RY, KL, KY in U. cbn [is_some Bool.eqb] in U. rewrite Nat.eqb_refl in U. cbn [andb b2n] in U. lia.
Qed.
Print Assumptions C59_mutate_unique.
(** concrete programs *)
Definition shape_of (ls ns : list nat) (k : loc -> bool) (o : loc -> option node) : shape := Sh ls ns k o (fun n => filter (fun l => is_some (o l) n) ls).
Lemma shape_wf : forall ls ns k o, NoDup ls -> NoDup ns -> wf (shape_of ls ns k o).
Proof.
  intros ls ns k o A B. constructor; auto.
  - intros n l. cbn [shape_of fields locs owner]. rewrite filter_In. unfold is_some. split; intros [X Y]; split; auto; [destruct (o l); [apply Nat.eqb_eq in Y; congruence|discriminate]|]. rewrite Y. apply Nat.eqb_refl.
  - intros n. cbn [shape_of fields]. apply NoDup_filter. auto.
Qed.
Ltac nd := repeat constructor; cbn; intuition discriminate.
Lemma safe_var : forall sh s ex l, In l (locs sh) -> owner sh l = None -> safe sh s ex l.
Proof. intros. split; auto. Qed.
(** nodes 0 and 1 with one ptr field each (locations 1 and 2), variable 0 a ptr, 3 a readonly, 4 a ptr; node 2 has the ptr field 5 *)
Definition sh1 := shape_of [0; 1; 2; 3; 4; 5] [0; 1; 2] (fun l => negb (Nat.eqb l 3)) (fun l => match l with 1 => Some 0 | 2 => Some 1 | 5 => Some 2 | _ => None end).
Lemma wf1 : wf sh1.
Proof. apply shape_wf; nd. Qed.
Fixpoint run (sh : shape) (os : list op) (s : st) : res := match os with [] => Ok s | o :: r => bind (step sh o s) (run sh r) end.
Fixpoint cans (sh : shape) (os : list op) (s : st) : Prop := match os with [] => True | o :: r => can sh s o /\ match step sh o s with Ok s' => cans sh r s' | _ => True end end.
Lemma run_reach : forall sh os s s', reach sh s -> cans sh os s -> run sh os s = Ok s' -> reach sh s'.
Proof.
  induction os as [|o os IH]; cbn [run cans]; intros s s' H C E; [congruence|]. destruct C as [C1 C2]. destruct (step sh o s) as [| | |s1] eqn:S; try discriminate. cbn [bind] in E. apply (IH s1); auto. econstructor; eauto.
Qed.
(** Moving a field of the only reference's node into that reference uses the field after it is deleted: p = std::move( p->next ). *)
Theorem C59_move_child_refuted : exists sh s l p, wf sh /\ reach sh s /\ l <> p /\ kind sh l = kind sh p /\ live sh s l = true /\ live sh s p = true /\ owner sh l = None /\ step sh (Move l p) s = Ub.
Proof.
  set (h := [New 0; Set_ 0 (Some 0); New 1; Set_ 1 (Some 1)]). destruct (run sh1 h start) as [| | |s] eqn:E; try discriminate E. exists sh1, s, 0, 1. split; [apply wf1|]. split.
  - apply (run_reach sh1 h start); auto; [constructor|]. cbn [cans h can]. split; [split; [left|]; auto|]. cbn [step]. split; [split; [intros n [= <-]; reflexivity|apply safe_var; [left|]; auto]|]. 
    match goal with |- match ?x with _ => _ end => destruct x as [| | |s2] eqn:E2; try discriminate E2 end. injection E2 as <-. split; [split; [right; left|]; reflexivity|]. split; [|exact Logic.I]. split; [intros n [= <-]; reflexivity|]. split; [right; left; auto|]. right. exists (fun m => m = 0), 0. split; auto. split; auto.
    intros m ->. split; [reflexivity|]. right. exists 0. split; [left; auto|]. split; [intros [X|[]]; discriminate|]. split; [reflexivity|auto].
  - injection E as <-. repeat split; try reflexivity. discriminate.
Qed.
Print Assumptions C59_move_child_refuted.
(** Clearing the field that closes a cycle of strong references deletes the field's own node, and the field is used again. *)
Theorem C59_cycle_refuted : exists sh s l, wf sh /\ reach sh s /\ live sh s l = true /\ step sh (Null l) s = Ub /\ step sh (Set_ l None) s = Ub.
Proof.
  set (h := [New 0; Set_ 0 (Some 0); Set_ 1 (Some 0); Null 0]). destruct (run sh1 h start) as [| | |s] eqn:E; try discriminate E. exists sh1, s, 1. split; [apply wf1|]. split.
  - apply (run_reach sh1 h start); auto; [constructor|]. cbn [cans h can]. split; [split; [left|]; auto|]. cbn [step]. split; [split; [intros n [= <-]; reflexivity|apply safe_var; [left|]; auto]|].
    match goal with |- match ?x with _ => _ end => destruct x as [| | |s2] eqn:E2; try discriminate E2 end. injection E2 as <-. split.
    + split; [intros n [= <-]; reflexivity|]. split; [right; left; auto|]. right. exists (fun m => m = 0), 0. split; auto. split; auto. intros m ->. split; [reflexivity|]. right. exists 0. split; [left; auto|]. split; [intros [X|[]]; discriminate|]. split; [reflexivity|auto].
    + match goal with |- match ?x with _ => _ end => destruct x as [| | |s2] eqn:E2; try discriminate E2 end. split; [apply safe_var; [left|]; reflexivity|]. match goal with |- match ?x with _ => _ end => destruct x; exact Logic.I end.
  - injection E as <-. repeat split; reflexivity.
Qed.
Print Assumptions C59_cycle_refuted.
(** A readonly reference keeps its node, so a child's readonly reference to its parent keeps both for ever: no variable refers to them, and neither is deleted. *)
Definition sh2 := shape_of [0; 1; 2] [0; 1] (fun l => negb (Nat.eqb l 2)) (fun l => match l with 1 => Some 0 | 2 => Some 1 | _ => None end).
Lemma wf2 : wf sh2.
Proof. apply shape_wf; nd. Qed.
Theorem C59_weak_cycle_refuted : exists sh s n m, wf sh /\ reach sh s /\ n <> m /\ alive s n = true /\ alive s m = true /\ loose s n = false /\ loose s m = false /\ count sh s true n = 0 /\
  (forall l x, In l (locs sh) -> owner sh l = None -> ~ refers s l x).
Proof.
  set (h := [New 0; Set_ 0 (Some 0); New 1; Set_ 1 (Some 1); Set_ 2 (Some 0); Null 0]). destruct (run sh2 h start) as [| | |s] eqn:E; try discriminate E. exists sh2, s, 0, 1. split; [apply wf2|]. split.
  - apply (run_reach sh2 h start); auto; [constructor|]. cbn [cans h can]. split; [split; [left|]; auto|]. cbn [step]. split; [split; [intros n [= <-]; reflexivity|apply safe_var; [left|]; auto]|].
    match goal with |- match ?x with _ => _ end => destruct x as [| | |s2] eqn:E2; try discriminate E2 end. injection E2 as <-. split; [split; [right; left|]; reflexivity|]. split.
    + split; [intros n [= <-]; reflexivity|]. split; [right; left; auto|]. right. exists (fun m => m = 0), 0. split; auto. split; auto. intros m ->. split; [reflexivity|]. right. exists 0. split; [left; auto|]. split; [intros [X|[]]; discriminate|]. split; [reflexivity|auto].
    + match goal with |- match ?x with _ => _ end => destruct x as [| | |s2] eqn:E2; try discriminate E2 end. injection E2 as <-. split.
      * split; [intros n [= <-]; reflexivity|]. split; [right; right; left; auto|]. right. exists (fun m => m = 0 \/ m = 1), 1. split; auto. split; auto. intros m [-> | ->]; (split; [reflexivity|]); right.
        -- exists 0. split; [left; auto|]. split; [intros [X|[]]; discriminate|]. split; [reflexivity|auto].
        -- exists 1. split; [right; left; auto|]. split; [intros [X|[]]; discriminate|]. split; [reflexivity|]. right. exists 0. auto.
      * match goal with |- match ?x with _ => _ end => destruct x as [| | |s2] eqn:E2; try discriminate E2 end. split; [apply safe_var; [left|]; reflexivity|]. match goal with |- match ?x with _ => _ end => destruct x; exact Logic.I end.
  - injection E as <-. repeat split; try reflexivity; try discriminate. intros l x [<- |[<- |[<- |[]]]] O; try discriminate O. discriminate.
Qed.
Print Assumptions C59_weak_cycle_refuted.
(** get_and_mutate through a readonly changes in place a node that a ptr elsewhere refers to. *)
Theorem C59_mutate_weak_refuted : exists sh s l p n n' s', wf sh /\ reach sh s /\ can sh s (Mutate l n') /\ l <> p /\ refers s l n /\ refers s p n /\ kind sh p = true /\ step sh (Mutate l n') s = Ok s' /\ refers s' l n.
Proof.
  set (h := [New 0; Set_ 4 (Some 0); Set_ 3 (Some 0)]). destruct (run sh1 h start) as [| | |s] eqn:E; try discriminate E. destruct (step sh1 (Mutate 3 2) s) as [| | |s'] eqn:E'; try (injection E as <-; discriminate E'). exists sh1, s, 3, 4, 0, 2, s'. split; [apply wf1|].
  assert (L3 : In 3 (locs sh1)) by (do 3 right; left; auto). assert (L4 : In 4 (locs sh1)) by (do 4 right; left; auto). split; [|split].
  - apply (run_reach sh1 h start); auto; [constructor|]. cbn [cans h can]. split; [split; [left|]; auto|]. cbn [step]. split; [split; [intros n [= <-]; reflexivity|apply safe_var; auto]|].
    match goal with |- match ?x with _ => _ end => destruct x as [| | |s2] eqn:E2; try discriminate E2 end. injection E2 as <-. split; [split; [intros n [= <-]; reflexivity|apply safe_var; auto]|]. match goal with |- match ?x with _ => _ end => destruct x; exact Logic.I end.
  - cbn [can]. split; [apply safe_var; auto|]. injection E as <-. split; [do 2 right; left; auto|]. split; [reflexivity|]. exists 0. split; reflexivity.
  - injection E as <-. injection E' as <-. repeat split; try reflexivity. discriminate.
Qed.
Print Assumptions C59_mutate_weak_refuted.
(** A shared parent is copied; the copy shares the child; dropping both parents deletes the child once, last. *)
Definition look (r : res) : option (list (nat * nat * bool * nat)) := match r with Ok s => Some (map (fun n => (cnt s true n, cnt s false n, alive s n, freed s n)) [0; 1; 2]) | _ => None end.
Example C59_ex_share : look (run sh1 [New 0; Set_ 0 (Some 0); New 1; Set_ 1 (Some 1); Set_ 4 (Some 0); Mutate 4 2] start) = Some [(1, 0, true, 0); (2, 0, true, 0); (1, 0, true, 0)].
Proof. reflexivity. Qed.
Example C59_ex_drop : look (run sh1 [New 0; Set_ 0 (Some 0); New 1; Set_ 1 (Some 1); Set_ 4 (Some 0); Mutate 4 2; Null 0] start) = Some [(0, 0, false, 1); (1, 0, true, 0); (1, 0, true, 0)].
Proof. reflexivity. Qed.
Example C59_ex_drop2 : look (run sh1 [New 0; Set_ 0 (Some 0); New 1; Set_ 1 (Some 1); Set_ 4 (Some 0); Mutate 4 2; Null 0; Destroy 4] start) = Some [(0, 0, false, 1); (0, 0, false, 1); (0, 0, false, 1)].
Proof. reflexivity. Qed.
Example C59_ex_abort : run sh1 [New 0; Set_ 0 (Some 0); Set_ 4 (Some 0); Set_ 3 (Some 0); Mutate 4 2] start = Abort.
Proof. reflexivity. Qed.
Example C59_ex_move : match run sh1 [New 0; Set_ 0 (Some 0); New 1; Set_ 4 (Some 1); Move 0 4] start with Ok s => (cont s 0, cont s 4, alive s 0, alive s 1) = (Some 1, None, false, true) | _ => False end.
Proof. reflexivity. Qed.
