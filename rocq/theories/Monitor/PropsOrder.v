(** C39: sorted acquisition of groups of monitors does not deadlock. *)
From Coq Require Import List Bool Arith Lia.
From Verif.Monitor Require Import Spec Model Proofs.
Import ListNotations.

(** Executions made of mutex calls and returns only, where a nested call asks for monitors that are held already or come after all held ones. *)
Definition legal (s : st) (t : nat) (a : act) : Prop :=
  match a with Call _ g => forall m, In m g -> dep (ts s t) m > 0 \/ forall i, dep (ts s t) i > 0 -> i <= m | Ret | Go => True | _ => False end.
Inductive creach : st -> Prop :=
| c_init : creach init
| c_step s t a s' : creach s -> legal s t a -> step s t a = Some s' -> creach s'.
Lemma creach_reach s : creach s -> reach s.
Proof. induction 1; [constructor|econstructor; eauto]. Qed.

Fixpoint srt (l : list nat) : Prop := match l with [] => True | a :: r => (forall x, In x r -> a <= x) /\ srt r end.
Lemma sortedb_srt l : sortedb l = true -> srt l.
Proof.
  induction l as [|a r IH]; cbn [sortedb srt]; auto. destruct r as [|b r]; [split; [intros ? []|exact I]|]. rewrite andb_true_iff. intros [A B]. apply Nat.leb_le in A. specialize (IH B). split; auto.
  intros x [H|H]; [subst; auto|]. destruct IH as [C _]. specialize (C x H). lia.
Qed.
Definition above (d : nat -> nat) (r : list nat) : Prop := srt r /\ forall x, In x r -> d x > 0 \/ forall i, d i > 0 -> i <= x.
Definition ord (k : pc) (d : nat -> nat) : Prop := match k with Ent r => above d r | Blk m r => above d (m :: r) | _ => True end.
Record Ord (N : nat) (s : st) : Prop := {
  oW : forall t, pcs (ts s t) <> Slp /\ pcs (ts s t) <> Res;
  oO : forall m t, own (ms s m) = Some t -> dep (ts s t) m > 0;
  oK : forall t, ord (pcs (ts s t)) (dep (ts s t));
  oN : forall t f g m, In (f, g) (fr (ts s t)) -> In m g -> m < N }.
Lemma above_tl d m r : above d (m :: r) -> above (upd d m (S (d m))) r.
Proof.
  intros [[A B] C]. split; auto. intros x H. assert (L := A x H). unfold upd. destruct (C x) as [D|D]; [now right| |].
  - left. destruct (Nat.eqb_spec x m); lia.
  - right. intros i. destruct (Nat.eqb_spec i m); [subst; auto|apply D].
Qed.
Lemma ord_next N s m : Inv s -> (forall i, sig (ms s i) = []) -> (forall t, pcs (ts s t) <> Slp /\ pcs (ts s t) <> Res) -> (forall i t, i <> m -> own (ms s i) = Some t -> dep (ts s t) i > 0) ->
  (forall t, ord (pcs (ts s t)) (dep (ts s t))) -> (forall t f g i, In (f, g) (fr (ts s t)) -> In i g -> i < N) -> Ord N (next s m).
Proof.
  intros I SG W O K F. unfold next. rewrite SG. destruct (entry (ms s m)) as [|u q] eqn:E.
  - constructor; unfold setM; sf; auto. intros i t. eqc i m M; ru; sf; [discriminate|]. now apply O.
  - destruct (proj1 (iH s I m u)) as [r P]; [rewrite E; now left|]. unfold admit, setM; sf. rewrite P. unfold deep, setT; sf.
    constructor; sf.
    + intro t. eqc t u N0; ru; sf; [split; discriminate|auto].
    + intros i t. eqc i m M; ru; sf; [intros [= <-]; ru; sf; ru; lia|]. intro H. eqc t u Nt; ru; sf; [rewrite upd_other by auto|]; now apply O.
    + intro t. eqc t u Nt; ru; sf; auto. specialize (K u). rewrite P in K. now apply above_tl.
    + intros t f g i. eqc t u Nt; ru; sf; apply F.
Qed.
Lemma ord_step N s t a s' : Inv s -> Ord N s -> legal s t a -> (forall f g m, a = Call f g -> In m g -> m < N) -> step s t a = Some s' -> Ord N s'.
Proof.
  intros I O L B. assert (SG : forall i, sig (ms s i) = []).
  { intro i. destruct (sig (ms s i)) as [|w r] eqn:E; auto. exfalso. destruct (iF s I i w) as [A _]; [rewrite E; now left|]. now apply (oW N s O) in A. }
  assert (MN : forall i, mask (ms s i) = None).
  { intro i. destruct (mask (ms s i)) as [[w k]|] eqn:E; auto. exfalso. destruct (iE s I i w k E) as [_ A]. now rewrite SG in A. }
  destruct O as [W O K F]. unfold step. destruct (pcs (ts s t)) as [|r|b r|r| |] eqn:P.
  - destruct a as [f g| | |c|c|c|k bl]; try contradiction; try discriminate.
    + destruct (sortedb g) eqn:G; [|discriminate]. intros [= <-]. unfold setT. constructor; sf.
      * intro u. eqc u t N0; ru; sf; [split; discriminate|auto].
      * intros i u H. eqc u t N0; ru; sf; now apply O.
      * intro u. eqc u t N0; ru; sf; auto. split; [now apply sortedb_srt|exact L].
      * intros u f' g' i. eqc u t N0; ru; sf; [|apply F]. intros [H|H]; [injection H as <- <-; now apply (B f)|now apply (F t f')].
    + destruct (fr (ts s t)) as [|[f g] q] eqn:FR; [discriminate|]. intros [= <-]. unfold setT. constructor; sf.
      * intro u. eqc u t N0; ru; sf; [split; discriminate|auto].
      * intros i u H. eqc u t N0; ru; sf; now apply O.
      * intro u. eqc u t N0; ru; sf; [exact Logic.I|auto].
      * intros u f' g' i. eqc u t N0; ru; sf; [|apply F]. intro H. apply (F t f'). rewrite FR. now right.
  - destruct r as [|m r]; destruct a; try discriminate.
    + intros [= <-]. unfold pcT, setT. constructor; sf.
      * intro u. eqc u t N0; ru; sf; [split; discriminate|auto].
      * intros i u H. eqc u t N0; ru; sf; now apply O.
      * intro u. eqc u t N0; ru; sf; [exact Logic.I|auto].
      * intros u f' g' i. eqc u t N0; ru; sf; apply F.
    + destruct (fr (ts s t)) as [|g q] eqn:FR; [discriminate|]. intros [= <-]. pose proof (K t) as Kt. rewrite P in Kt. cbn [ord] in Kt.
      unfold enter. 
      assert (D : forall x, own x = Some t -> Ord N (deep (setM s m x) t m (Ent r))).
      { intros x X. unfold deep, setM, setT. constructor; sf.
        - intro u. eqc u t N0; ru; sf; [split; discriminate|auto].
        - intros i u H. eqc u t N0; ru; sf.
          + eqc i m M; ru; [lia|]. rewrite ?upd_other by auto. ru. now apply O.
          + eqc i m M; ru; [congruence|]. now apply O.
        - intro u. eqc u t N0; ru; sf; auto. now apply above_tl.
        - intros u f' g' i. eqc u t N0; ru; sf; apply F. }
      destruct (own (ms s m)) as [o|] eqn:OW; [|apply D; reflexivity]. destruct (o =? t); [apply D; reflexivity|].
      unfold is_accepted. rewrite MN. unfold pcT, setM, setT. constructor; sf.
      * intro u. eqc u t N0; ru; sf; [split; discriminate|auto].
      * intros i u H. assert (H' : own (ms s i) = Some u) by (eqc i m M; ru; sf; congruence). eqc u t N0; ru; sf; now apply O.
      * intro u. eqc u t N0; ru; sf; auto.
      * intros u f' g' i. eqc u t N0; ru; sf; apply F.
  - destruct a; discriminate.
  - destruct r as [|m r]; destruct a; try discriminate.
    + intros [= <-]. unfold pcT, setT. constructor; sf.
      * intro u. eqc u t N0; ru; sf; [split; discriminate|auto].
      * intros i u H. eqc u t N0; ru; sf; now apply O.
      * intro u. eqc u t N0; ru; sf; [exact Logic.I|auto].
      * intros u f' g' i. eqc u t N0; ru; sf; apply F.
    + intros [= <-].
      assert (C : calm (pcs (ts s t))) by (rewrite P; exact Logic.I).
      pose proof (iK s I t m) as KK. rewrite P in KK. unfold cnt in KK. cbn [count_occ] in KK. destruct (Nat.eq_dec m m); [|congruence].
      assert (OW : own (ms s m) = Some t). { destruct (iA s I t m) as [A|A]; [lia|exact (False_ind _ (calm_away _ _ C A))|auto]. }
      assert (R : rc (ms s m) = dep (ts s t) m). { destruct (iB s I t m OW) as [A|A]; auto. exact (False_ind _ (calm_wtp _ _ C A)). }
      pose proof (leave_inv s t m r I P) as IL.
      unfold leave in *. set (y := Thr (Lea r) _ _ _ _ _ _) in *. set (s1 := setT _ t y) in *.
      assert (W1 : forall u, pcs (ts s1 u) <> Slp /\ pcs (ts s1 u) <> Res) by (intro u; subst s1 y; unfold setT, setM; sf; eqc u t N0; ru; sf; [split; discriminate|auto]).
      assert (K1 : forall u, ord (pcs (ts s1 u)) (dep (ts s1 u))) by (intro u; subst s1 y; unfold setT, setM; sf; eqc u t N0; ru; sf; [exact Logic.I|auto]).
      assert (F1 : forall u f g i, In (f, g) (fr (ts s1 u)) -> In i g -> i < N) by (intros u f g i; subst s1 y; unfold setT, setM; sf; eqc u t N0; ru; sf; apply F).
      assert (O1 : forall i u, i <> m -> own (ms s1 i) = Some u -> dep (ts s1 u) i > 0).
      { intros i u Ni. subst s1 y; unfold setT, setM; sf. rewrite upd_other by auto. intro H. eqc u t N0; ru; sf; [rewrite upd_other by auto|]; now apply O. }
      destruct (Nat.eqb_spec (pred (rc (ms s m))) 0) as [E|E].
      * assert (J : exists s2, next s1 m = next s2 m /\ Inv s2 /\ s2 = s1).
        { exists s1. split; auto. split; auto. subst s1 y. apply inv_rec; sf; auto.
          - rewrite upd_same. congruence.
          - intros i Hi. now rewrite upd_other.
          - pose proof (iK s I t) as Kt. rewrite P in Kt. intros i. specialize (Kt i). unfold cnt in *. cbn [count_occ] in Kt. unfold upd. destruct (Nat.eqb_spec i m) as [Ei|Ei]; [subst i|]; destruct (Nat.eq_dec m _); try lia; congruence. }
        destruct J as (s2 & _ & J & ->). apply ord_next; auto. intro i. subst s1; unfold setT, setM; sf. eqc i m M; ru; sf; auto.
      * constructor; auto. intros i u H. eqc i m M; [|now apply O1]. subst s1 y; unfold setT, setM in *; sf. ru; sf. assert (u = t) by congruence. subst u. ru; sf. rewrite upd_same. lia.
  - destruct a; discriminate.
  - now apply (W t) in P.
Qed.
Lemma ord_mono N M s : Ord N s -> N <= M -> Ord M s.
Proof. intros [A B C D] L. constructor; auto. intros t f g m H1 H2. specialize (D t f g m H1 H2). lia. Qed.
Lemma list_bound (l : list nat) : exists N, forall m, In m l -> m < N.
Proof. induction l as [|a l [N H]]; [exists 0; intros ? []|]. exists (S (max a N)). intros m [<-|Hm]; [lia|]. specialize (H m Hm). lia. Qed.
Lemma creach_ord s : creach s -> exists N, Ord N s.
Proof.
  induction 1 as [|s t a s' R [N O] L St].
  - exists 0. constructor; unfold init; sf; try (split; discriminate); try discriminate; try exact (fun _ => Logic.I); intros ? ? ? ? [].
  - assert (BD : exists M, N <= M /\ forall f g m, a = Call f g -> In m g -> m < M).
    { destruct a as [f g| | | | | |]; try (exists N; split; [auto|discriminate]). destruct (list_bound g) as [M H]. exists (max N M). split; [lia|]. intros f' g' m [= <- <-] Hm. specialize (H m Hm). lia. }
    destruct BD as (M & LM & BD). exists M. eapply ord_step; eauto; [apply inv_reach; now apply creach_reach|now apply ord_mono with N].
Qed.
(** Whenever a thread is blocked on entry, some thread inside a mutex call can go on. *)
Theorem C39_no_deadlock s t m r : creach s -> pcs (ts s t) = Blk m r -> exists u a s', (a = Go \/ a = Ret) /\ step s u a = Some s' /\ exists i, dep (ts s u) i > 0 /\ m <= i.
Proof.
  intros R. destruct (creach_ord s R) as [N O]. apply creach_reach in R. apply inv_reach in R as I. clear R.
  remember (N - m) as n. revert t m r Heqn. induction n as [n IH] using lt_wf_ind. intros t m r En P.
  assert (OW : exists o, own (ms s m) = Some o /\ o <> t). { destruct (iO s I m t r P) as [A B]. destruct (own (ms s m)) as [o|]; [exists o; split; congruence|congruence]. }
  destruct OW as (o & Ho & No). pose proof (oO N s O m o Ho) as D.
  destruct (oW N s O o) as [W1 W2]. pose proof (iK s I o) as K.
  destruct (pcs (ts s o)) as [|q|b q|q| |] eqn:Po; try congruence.
  - destruct (fr (ts s o)) as [|[f g] fs] eqn:F.
    + specialize (K m). cbn in K. lia.
    + exists o, Ret. unfold step. rewrite Po, F. eexists. split; [auto|]. split; [reflexivity|]. exists m; auto.
  - destruct (K m) as [_ (c & p & fs & E)]. exists o, Go. unfold step. rewrite Po. destruct q as [|i q]; [|rewrite E]; eexists; (split; [auto|]); (split; [reflexivity|]); exists m; auto.
  - pose proof (oK N s O o) as Q. rewrite Po in Q. cbn [ord] in Q. destruct Q as [_ Q].
    destruct (iO s I b o q Po) as [NB _].
    assert (Z : dep (ts s o) b = 0). { destruct (dep (ts s o) b) eqn:Eb; auto. exfalso. destruct (iA s I o b) as [[A _]|A]; [lia|congruence|congruence]. }
    destruct (Q b) as [A|A]; [now left|lia|]. pose proof (A m D) as Lm. assert (m <> b) by congruence.
    destruct (K b) as [_ (c & p & fs & E)]. assert (BN : b < N). { apply (oN N s O o c (p ++ b :: q)); [rewrite E; now left|apply in_app_iff; right; now left]. }
    destruct (IH (N - b)) with (t := o) (m := b) (r := q) as (u & a & s' & X1 & X2 & i & X3 & X4); auto; [lia|].
    exists u, a, s'. split; auto. split; auto. exists i. split; auto. lia.
  - exists o, Go. unfold step. rewrite Po. destruct q; eexists; (split; [auto|]); (split; [reflexivity|]); exists m; auto.
Qed.
Print Assumptions C39_no_deadlock.
(** Without the order deadlock is possible: the same calls nested against the order. *)
Fixpoint go (s : st) (l : list (nat * act)) : option st := match l with [] => Some s | (t, a) :: r => match step s t a with Some s' => go s' r | None => None end end.
Example C39_unordered_deadlocks : exists s, go init [(0, Call 1 [2]); (0, Go); (0, Go); (1, Call 1 [1]); (1, Go); (1, Go); (0, Call 1 [1]); (0, Go); (1, Call 1 [2]); (1, Go)] = Some s /\
  pcs (ts s 0) = Blk 1 [] /\ pcs (ts s 1) = Blk 2 [] /\ forall a, step s 0 a = None /\ step s 1 a = None.
Proof. eexists. split; [vm_compute; reflexivity|]. split; [reflexivity|]. split; [reflexivity|]. intro a; destruct a; split; reflexivity. Qed.
(** Three threads, overlapping groups, blocked in a chain: the last one can go on. *)
Example C39_demo : exists s, go init [(0, Call 1 [1; 2]); (0, Go); (1, Call 1 [2; 3]); (1, Go); (2, Call 1 [3]); (2, Go); (0, Go); (1, Go)] = Some s /\
  pcs (ts s 0) = Blk 2 [] /\ pcs (ts s 1) = Blk 3 [] /\ step s 2 Go <> None.
Proof. eexists. split; [vm_compute; reflexivity|]. split; [reflexivity|]. split; [reflexivity|]. vm_compute. discriminate. Qed.
