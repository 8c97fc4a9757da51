(** C43: StackLF is a stack, with nodes reused arbitrarily. *)
From Coq Require Import List Bool Arith Lia.
From Verif.LockFree Require Import Spec StackModel StackProofs.
Import ListNotations.

(** The logged operations, in the order they took effect, are a legal run of a sequential stack whose final content is
    what is linked from the stack word. *)
Theorem C43_linearizable : forall s, reach s -> exists l, runs (map snd (lg s)) l /\ chain (ntop s) (top s) l /\ NoDup l.
Proof. intros s R. destruct (reach_inv s R) as (l & A & B & C & _). eauto. Qed.
Print Assumptions C43_linearizable.

(** A call is over when its thread is idle again. [result] of the step that ends a call. *)
Definition returns (s : st) (t : nat) (s' : st) : option ev :=
  match pcs s t, pcs s' t with
  | PushC n, Idle => Some (EPush n)
  | Pop1 None _, Idle => Some (EPop None)
  | PopC x _ _, Idle => Some (EPop (Some x))
  | _, _ => None
  end.
(** Every call puts exactly one operation in the log, by one of its own steps, and returns that operation's result:
    a thread's log entries are its completed calls, plus the entry of a pop that has seen the stack empty. *)
Definition decided (k : pc) : bool := match k with PopT None | Pop1 None _ => true | _ => false end.
Definition done_after (n : nat) (s : st) (t : nat) : Prop :=
  ops_of t (lg s) = n + (if decided (pcs s t) then 1 else 0) /\ (decided (pcs s t) = true -> last_of t (lg s) = Some (EPop None)).
Inductive reachc (t : nat) : st -> nat -> Prop :=
| rc_init : reachc t init 0
| rc_step s n u a s' : reachc t s n -> step s u a = Some s' -> reachc t s' (n + match returns s t s' with Some _ => if u =? t then 1 else 0 | None => 0 end).
Lemma step_other : forall s u a s' t, step s u a = Some s' -> t <> u -> pcs s' t = pcs s t /\ ops_of t (lg s') = ops_of t (lg s) /\ last_of t (lg s') = last_of t (lg s).
Proof.
  intros s u a s' t H N. unfold step in H. assert (F : (u =? t) = false) by (apply Nat.eqb_neq; congruence).
  destruct (pcs s u); destruct a; try discriminate; repeat match type of H with context [match ?x with _ => _ end] => destruct x end; inversion H; subst; unfold setp, seen in *; sf; rewrite ?upd_other by exact N;
    rewrite ?ops_app, ?last_of_app, ?F, ?Nat.add_0_r; auto; destruct (top s); rewrite ?ops_app, ?last_of_app, ?F, ?Nat.add_0_r; auto.
Qed.
Theorem C43_results : forall t s n, reachc t s n -> done_after n s t /\
  forall a s', step s t a = Some s' -> forall e, returns s t s' = Some e -> last_of t (lg s') = Some e.
Proof.
  intros t s n R. assert (D : done_after n s t).
  { induction R as [|s n u a s' R IH H]; [split; [reflexivity|discriminate]|]. destruct (Nat.eqb_spec u t) as [E0|N].
    - subst u. destruct IH as [I1 I2]. unfold done_after, returns. unfold step in H.
      destruct (pcs s t) as [|m dt dn|m dn x|m dt y|m x y|m y|m| |x|y|x y|x y nx] eqn:K; destruct a as [m0| |c]; try discriminate; cbn [decided] in *;
        repeat match type of H with context [if ?x then _ else _] => destruct x end; try discriminate; try match goal with x : option nat |- _ => destruct x as [x|] end; inversion H; subst; clear H; unfold setp, seen in *; sf; rewrite ?upd_same; cbn [decided]; rewrite ?ops_app, ?last_of_app, ?Nat.eqb_refl; try (split; [lia|discriminate]);
        cbv beta iota in I1 |- *; try (destruct (top s); cbn [decided]; rewrite ?ops_app, ?last_of_app, ?Nat.eqb_refl; cbv beta iota; (split; [lia|intros; (discriminate || reflexivity)])); try (split; [lia|auto]).
    - destruct (step_other s u a s' t H) as (A & B & C); [congruence|]. unfold done_after in *. rewrite A, B, C. destruct (returns s t s'); rewrite Nat.add_0_r; exact IH. }
  split; [exact D|]. intros a s' H e E. destruct D as [D1 D2]. unfold returns in E. unfold step in H.
  destruct (pcs s t) as [|m dt dn|m dn x|m dt y|m x y|m y|m| |x|y|x y|x y nx] eqn:K; try discriminate; destruct a as [m0| |c]; try discriminate.
  - destruct (oeqb (top s) (ntop s m) && (cnt s =? ncnt s m)); inversion H; subst; clear H; sf; rewrite ?upd_same in E; inversion E; subst. now rewrite last_of_app, Nat.eqb_refl.
  - destruct x as [x|]; inversion H; subst; clear H; unfold setp in *; sf; rewrite ?upd_same in E; inversion E; subst. now apply D2.
  - destruct (oeqb (top s) (Some x) && (cnt s =? y)); inversion H; subst; clear H; unfold seen in *; sf; rewrite ?upd_same in E; inversion E; subst. now rewrite last_of_app, Nat.eqb_refl.
Qed.
Print Assumptions C43_results.

(** Nothing lost, nothing returned twice: a node has been pushed as often as popped, plus once if it is in the stack. *)
Definition pushes (n : nat) (l : list ev) : nat := length (filter (fun e => match e with EPush m => m =? n | _ => false end) l).
Definition pops (n : nat) (l : list ev) : nat := length (filter (fun e => match e with EPop (Some m) => m =? n | _ => false end) l).
Lemma runs_count : forall l st n, runs l st -> pushes n l = pops n l + count_occ Nat.eq_dec st n.
Proof.
  induction 1 as [|l st m R IH|l m st R IH|l R IH]; unfold pushes, pops in *; rewrite ?filter_app, ?app_length; cbn in *; try lia.
  - destruct (Nat.eqb_spec m n), (Nat.eq_dec m n); cbn; try congruence; lia.
  - destruct (Nat.eqb_spec m n), (Nat.eq_dec m n); cbn in *; try congruence; lia.
Qed.
Theorem C43_conservation : forall s n, reach s -> pushes n (map snd (lg s)) = pops n (map snd (lg s)) \/ pushes n (map snd (lg s)) = S (pops n (map snd (lg s))).
Proof.
  intros s n R. destruct (reach_inv s R) as (l & A & B & _). rewrite (runs_count _ _ n A). rewrite (NoDup_count_occ Nat.eq_dec) in B. specialize (B n). lia.
Qed.
Print Assumptions C43_conservation.

(** The version counter never goes back: it is the number of pushes. *)
Theorem C43_version : forall s, reach s -> cnt s = length (filter (fun e => match e with EPush _ => true | _ => false end) (map snd (lg s))).
Proof.
  intros s R. induction R as [|s t a s' R IH H]; [reflexivity|]. unfold step in H.
  destruct (pcs s t) as [|m dt dn|m dn x|m dt y|m x y|m y|m| |x|y|x y|x y nx] eqn:K; destruct a as [m0| |c]; try discriminate;
    repeat match type of H with context [if ?x then _ else _] => destruct x eqn:?Q end; try discriminate; try match goal with x : option nat |- _ => destruct x as [x|] end; inversion H; subst; clear H; unfold setp, seen in *; sf; auto;
    try (destruct (top s); rewrite ?map_app, ?filter_app; cbn; rewrite ?app_nil_r; exact IH).
  - apply andb_true_iff in Q. destruct Q as [_ Q]. apply Nat.eqb_eq in Q. rewrite map_app, filter_app, app_length. cbn. lia.
  - apply andb_true_iff in Q. destruct Q as [_ Q]. apply Nat.eqb_eq in Q. rewrite map_app, filter_app, app_length. cbn. lia.
  - apply andb_true_iff in Q. destruct Q as [_ Q]. apply Nat.eqb_eq in Q. rewrite map_app, filter_app, app_length. cbn. lia.
Qed.
Print Assumptions C43_version.

(** A thread in the middle of a call that runs alone finishes the call within ten steps. *)
Fixpoint solo (k : nat) (s : st) (t : nat) : bool :=
  match pcs s t with
  | Idle => true
  | _ => match k with O => false | S k' => match step s t (Go true) with Some s' => solo k' s' t | None => false end end
  end.
Lemma oeqb_refl : forall a, oeqb a a = true.
Proof. intros [x|]; cbn; [apply Nat.eqb_refl|reflexivity]. Qed.
Lemma solo_le : forall j k s t, j <= k -> solo j s t = true -> solo k s t = true.
Proof.
  induction j as [|j IH]; intros k s t L H; destruct k as [|k]; auto; try lia; cbn [solo] in *; destruct (pcs s t); auto; try discriminate;
    (destruct (step s t (Go true)); [apply (IH k); [lia|exact H]|discriminate]).
Qed.
Lemma solo_S : forall k s t s', step s t (Go true) = Some s' -> solo k s' t = true -> solo (S k) s t = true.
Proof. intros k s t s' H E. cbn [solo]. rewrite H. destruct (pcs s t); auto. Qed.
Lemma solo_idle : forall k s t, pcs s t = Idle -> solo k s t = true.
Proof. intros [|k] s t H; cbn [solo]; now rewrite H. Qed.
Lemma solo_push : forall s t n, pcs s t = PushC n -> solo 4 s t = true.
Proof.
  intros s t n K. destruct (oeqb (top s) (ntop s n) && (cnt s =? ncnt s n)) eqn:Q.
  - eapply solo_S; [unfold step; rewrite K, Q; reflexivity|]. apply solo_idle. cbn [pcs]. apply upd_same.
  - eapply solo_S; [unfold step; rewrite K, Q; reflexivity|]. eapply solo_S; [unfold step; cbn [pcs setp]; rewrite upd_same; reflexivity|].
    eapply solo_S; [unfold step; cbn [pcs]; rewrite upd_same; reflexivity|].
    eapply solo_S; [unfold step; cbn [pcs top cnt ntop ncnt setp]; rewrite !upd_same, oeqb_refl, Nat.eqb_refl; reflexivity|]. apply solo_idle. cbn [pcs]. apply upd_same.
Qed.
Lemma solo_pop : forall s t, pcs s t = Pop1 (top s) (cnt s) -> solo 2 s t = true.
Proof.
  intros s t K. destruct (top s) as [x|] eqn:T; (eapply solo_S; [unfold step; rewrite K; reflexivity|]); [|apply solo_idle; cbn [pcs setp]; apply upd_same].
  eapply solo_S; [unfold step; cbn [pcs setp top cnt]; rewrite upd_same, T, oeqb_refl, Nat.eqb_refl; reflexivity|]. apply solo_idle. cbn [pcs]. apply upd_same.
Qed.
Lemma solo_popc : forall s t x y nx, pcs s t = PopC x y nx -> solo 3 s t = true.
Proof.
  intros s t x y nx K. destruct (oeqb (top s) (Some x) && (cnt s =? y)) eqn:Q.
  - eapply solo_S; [unfold step; rewrite K, Q; reflexivity|]. apply solo_idle. cbn [pcs]. apply upd_same.
  - eapply solo_S; [unfold step; rewrite K, Q; reflexivity|]. apply solo_pop. cbn [seen pcs top cnt]. apply upd_same.
Qed.
Lemma solo_pop1 : forall s t x y, pcs s t = Pop1 x y -> solo 4 s t = true.
Proof.
  intros s t [x|] y K; [|eapply solo_S; [unfold step; rewrite K; reflexivity|]; apply solo_idle; cbn [setp pcs]; apply upd_same].
  eapply solo_S; [unfold step; rewrite K; reflexivity|]. eapply solo_popc. cbn [setp pcs]. apply upd_same.
Qed.
Theorem C43_solo : forall s t, solo 10 s t = true.
Proof.
  intros s t.
  assert (P3 : forall s n, pcs s t = Push n true true -> solo 5 s t = true).
  { intros z n K. eapply solo_S; [unfold step; rewrite K; reflexivity|]. eapply solo_push. cbn [setp pcs]. apply upd_same. }
  assert (PN : forall s n y, pcs s t = PushN n true y -> solo 6 s t = true).
  { intros z n y K. eapply solo_S; [unfold step; rewrite K; reflexivity|]. eapply P3. cbn [pcs]. apply upd_same. }
  assert (P2 : forall s n, pcs s t = Push n true false -> solo 7 s t = true).
  { intros z n K. eapply solo_S; [unfold step; rewrite K; reflexivity|]. eapply PN. cbn [setp pcs]. apply upd_same. }
  assert (PT : forall s n x, pcs s t = PushT n false x -> solo 8 s t = true).
  { intros z n x K. eapply solo_S; [unfold step; rewrite K; reflexivity|]. eapply P2. cbn [pcs]. apply upd_same. }
  assert (PT' : forall s n x, pcs s t = PushT n true x -> solo 6 s t = true).
  { intros z n x K. eapply solo_S; [unfold step; rewrite K; reflexivity|]. eapply P3. cbn [pcs]. apply upd_same. }
  assert (P1 : forall s n, pcs s t = Push n false true -> solo 7 s t = true).
  { intros z n K. eapply solo_S; [unfold step; rewrite K; reflexivity|]. eapply PT'. cbn [setp pcs]. apply upd_same. }
  destruct (pcs s t) as [|n dt dn|n dn x|n dt y|n x y|n y|n| |x|y|x y|x y nx] eqn:K.
  - now apply solo_idle.
  - destruct dt, dn; [apply (solo_le 5); [lia|exact (P3 _ _ K)]|apply (solo_le 7); [lia|exact (P2 _ _ K)]|apply (solo_le 7); [lia|exact (P1 _ _ K)]|apply (solo_le 9); [lia|]].
    eapply solo_S; [unfold step; rewrite K; reflexivity|]. eapply PT. cbn [setp pcs]. apply upd_same.
  - destruct dn; [apply (solo_le 6); [lia|exact (PT' _ _ _ K)]|apply (solo_le 8); [lia|exact (PT _ _ _ K)]].
  - destruct dt; [apply (solo_le 6); [lia|exact (PN _ _ _ K)]|apply (solo_le 8); [lia|]]. eapply solo_S; [unfold step; rewrite K; reflexivity|]. eapply P1. cbn [pcs]. apply upd_same.
  - apply (solo_le 6); [lia|]. eapply solo_S; [unfold step; rewrite K; reflexivity|]. eapply solo_S; [unfold step; cbn [pcs]; rewrite upd_same; reflexivity|]. eapply solo_push. cbn [pcs]. apply upd_same.
  - apply (solo_le 5); [lia|]. eapply solo_S; [unfold step; rewrite K; reflexivity|]. eapply solo_push. cbn [pcs]. apply upd_same.
  - apply (solo_le 4); [lia|]. exact (solo_push _ _ _ K).
  - apply (solo_le 6); [lia|]. eapply solo_S; [unfold step; rewrite K; reflexivity|]. eapply solo_S; [unfold step; cbn [seen pcs]; rewrite upd_same; reflexivity|]. eapply solo_pop1. cbn [setp pcs]. apply upd_same.
  - apply (solo_le 5); [lia|]. eapply solo_S; [unfold step; rewrite K; reflexivity|]. eapply solo_pop1. cbn [setp pcs]. apply upd_same.
  - apply (solo_le 5); [lia|]. eapply solo_S; [unfold step; rewrite K; reflexivity|]. eapply solo_pop1. cbn [seen pcs]. apply upd_same.
  - apply (solo_le 4); [lia|]. exact (solo_pop1 _ _ _ _ K).
  - apply (solo_le 3); [lia|]. exact (solo_popc _ _ _ _ _ K).
Qed.
Print Assumptions C43_solo.

(** The ABA schedule: thread 0 reads top 1 and its link, then 1 and 2 are popped and 1 pushed again; the stale swap fails. *)
Fixpoint go (s : st) (l : list (nat * call)) : option st := match l with [] => Some s | (t, a) :: l' => match step s t a with Some s' => go s' l' | None => None end end.
Definition psh (t n : nat) := (t, CPush n) :: repeat (t, Go true) 6.
Definition pp (t : nat) := (t, CPop) :: repeat (t, Go true) 4.
Example C43_example : exists s, go init (psh 1 2 ++ psh 1 1 ++ [(0, CPop)] ++ repeat (0, Go true) 3 ++ pp 1 ++ pp 1 ++ psh 1 1 ++ repeat (0, Go true) 3) = Some s /\
  map snd (lg s) = [EPush 2; EPush 1; EPop (Some 1); EPop (Some 2); EPush 1; EPop (Some 1)] /\ top s = None /\ pcs s 0 = Idle.
Proof. vm_compute. eexists. repeat split. Qed.
