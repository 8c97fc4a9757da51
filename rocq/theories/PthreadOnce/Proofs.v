From Coq Require Import List Bool Arith Lia.
From Verif.PthreadOnce Require Import Model Spec.
Import ListNotations.

Lemma upd_same : forall A (f : nat -> A) x v, upd f x v x = v.
Proof. intros. unfold upd. now rewrite Nat.eqb_refl. Qed.
Lemma upd_other : forall A (f : nat -> A) x v y, y <> x -> upd f x v y = f y.
Proof. intros. unfold upd. apply Nat.eqb_neq in H. now rewrite H. Qed.

Ltac who t u := destruct (Nat.eq_dec t u) as [->|?];
  [rewrite ?upd_same in *|rewrite ?upd_other in * by (auto; congruence)].

Definition got (m : mode) : nat := match m with Got _ => 1 | _ => 0 end.
Definition waits (m : mode) : bool := match m with Wait _ => true | _ => false end.

Definition cnt (c : nat) (l : list nat) : nat := count_occ Nat.eq_dec l c.

(* The invariant of the lock. *)
Record L (s : state) : Prop := {
  l_own : match owner s with
          | None => rec s = 0 /\ queue s = [] /\ (forall t, modes s t = Run /\ stack s t = [])
          | Some t => rec s = length (stack s t) + got (modes s t) /\ 0 < rec s /\ waits (modes s t) = false /\
                      forall u, u <> t -> stack s u = [] /\ got (modes s u) = 0
          end;
  l_queue : forall u, In u (queue s) <-> waits (modes s u) = true;
  l_nodup : NoDup (queue s)
}.

Definition hold (s : state) : list nat := match owner s with Some t => stack s t | None => [] end.

(* The invariant of the controls. *)
Record C (s : state) : Prop := {
  c_flag : forall c, flag s c = true <-> 0 < finished s c;
  c_count : forall c, started s c = finished s c + cnt c (hold s)
}.

(* If no init routine is entered anew: *)
Record N (s : state) : Prop := {
  n_nodup : NoDup (hold s);
  n_open : forall c, In c (hold s) -> flag s c = false;
  n_once : forall c, finished s c <= 1;
  n_got : forall t c, modes s t = Got c -> ~ In c (hold s)
}.

Lemma is_me_iff : forall o t, is_me o t = true <-> o = Some t.
Proof.
  intros [x|] t; cbn [is_me]; [|split; discriminate].
  rewrite Nat.eqb_eq. split; [intros ->; reflexivity|congruence].
Qed.

Ltac simp := cbn [owner rec queue flag modes stack started finished set_lock set_mode] in *.

Lemma l_start : L start.
Proof.
  constructor; unfold start; simp; auto; [|constructor].
  intros u. cbn. split; [intros []|discriminate].
Qed.

Lemma nodup_snoc : forall (l : list nat) x, NoDup l -> ~ In x l -> NoDup (l ++ [x]).
Proof.
  induction l as [|a l IH]; intros x D I; cbn [app].
  - constructor; [intros []|constructor].
  - inversion D; subst. constructor.
    + rewrite in_app_iff. cbn [In]. cbn [In] in I. intuition congruence.
    + apply IH; auto. intros Q. apply I. right. exact Q.
Qed.

Lemma l_lock : forall s t c, L s -> modes s t = Run -> L (lock s t c).
Proof.
  intros s t c [O Q D] M. unfold lock. destruct (is_me (owner s) t) eqn:E.
  - apply is_me_iff in E. rewrite E in *. destruct O as (R & P & W & F). constructor; simp; auto.
    + rewrite upd_same. cbn [got waits]. rewrite M in R. cbn [got] in R. repeat split; try lia.
      * destruct (F u H); auto.
      * rewrite upd_other by auto. destruct (F u H); auto.
    + intros u. rewrite Q. who u t; [|tauto]. rewrite M. cbn. tauto.
  - destruct (owner s) as [w|] eqn:EO.
    + assert (D1 : t <> w) by (intros ->; cbn in E; rewrite Nat.eqb_refl in E; discriminate).
      destruct O as (R & P & W & F). constructor; simp; auto.
      * rewrite upd_other by auto. repeat split; auto.
        -- apply F; auto.
        -- who u t; [reflexivity|apply F; auto].
      * intros u. rewrite in_app_iff. cbn [In]. rewrite Q. who u t; cbn [waits]; [tauto|].
        split; [intros [X|[X|[]]]; [exact X|congruence]|tauto].
      * apply nodup_snoc; auto. rewrite Q, M. discriminate.
    + destruct O as (R & P & F). constructor; simp; auto.
      * rewrite upd_same. cbn [got waits]. destruct (F t) as [_ ->]. cbn [length]. repeat split; auto.
        -- apply F.
        -- rewrite upd_other by auto. destruct (F u) as [-> _]. reflexivity.
      * intros u. rewrite Q. who u t; [|tauto]. rewrite M. cbn. tauto.
Qed.

(* Before the last unlock: nobody is inside. *)
Lemma l_pop : forall s, (forall t, stack s t = [] /\ got (modes s t) = 0) ->
  (forall u, In u (queue s) <-> waits (modes s u) = true) -> NoDup (queue s) -> L (pop_node s).
Proof.
  intros s F Q D. unfold pop_node. destruct (queue s) as [|u q] eqn:E.
  - constructor; simp; auto.
    + repeat split; auto; [|apply F]. destruct (F t) as [_ G].
      destruct (modes s t) eqn:M; auto; [|discriminate].
      assert (In t []) by (apply Q; rewrite M; reflexivity). contradiction.
  - inversion D; subst. assert (W : waits (modes s u) = true) by (apply Q; left; reflexivity).
    destruct (modes s u) as [|c|] eqn:M; try discriminate.
    constructor; simp; auto.
    + rewrite upd_same. cbn [got waits]. destruct (F u) as [-> _]. cbn [length]. repeat split; auto.
      * apply F.
      * rewrite upd_other by auto. apply F.
    + intros v. who v u; cbn [waits]; [split; [contradiction|discriminate]|].
      rewrite <- Q. cbn [In]. split; [auto|]. intros [->|X]; [congruence|exact X].
Qed.

Lemma l_unlock : forall s t, owner s = Some t -> rec s = S (length (stack s t)) -> modes s t = Run ->
  (forall u, u <> t -> stack s u = [] /\ got (modes s u) = 0) ->
  (forall u, In u (queue s) <-> waits (modes s u) = true) -> NoDup (queue s) -> L (unlock s).
Proof.
  intros s t EO R M F Q D. unfold unlock. simp. rewrite R. cbn [pred].
  destruct (Nat.eqb_spec (length (stack s t)) 0) as [Z|Z].
  - apply l_pop; simp; auto. intros u. destruct (Nat.eq_dec u t) as [->|X]; [|apply F; auto].
    rewrite M. split; [|reflexivity]. destruct (stack s t); [reflexivity|discriminate].
  - constructor; simp; auto. rewrite EO, M. cbn [got waits]. repeat split; auto; try lia; apply F; auto.
Qed.

(* The thread that got the lock, or is inside an init routine, is its owner. *)
Lemma owner_got : forall s t c, L s -> modes s t = Got c -> owner s = Some t.
Proof.
  intros s t c [O _ _] M. destruct (owner s) as [w|].
  - destruct O as (_ & _ & _ & F). destruct (Nat.eq_dec t w) as [->|D]; [reflexivity|].
    destruct (F t D) as [_ G]. rewrite M in G. discriminate.
  - destruct O as (_ & _ & F). destruct (F t). congruence.
Qed.

Lemma owner_in : forall s t, L s -> stack s t <> [] -> owner s = Some t.
Proof.
  intros s t [O _ _] M. destruct (owner s) as [w|].
  - destruct O as (_ & _ & _ & F). destruct (Nat.eq_dec t w) as [->|D]; [reflexivity|].
    destruct (F t D) as [G _]. contradiction.
  - destruct O as (_ & _ & F). destruct (F t). contradiction.
Qed.

Lemma l_go : forall s t c s1 r, L s -> modes s t = Got c -> go s t c = Ok s1 r -> L s1.
Proof.
  intros s t c s1 r H M E. pose proof (owner_got _ _ _ H M) as EO. destruct H as [O Q D].
  rewrite EO in O. destruct O as (R & P & W & F). rewrite M in R. cbn [got] in R.
  unfold go in E. destruct (flag s c); injection E as <- <-.
  - apply (l_unlock _ t); simp; auto.
    + lia.
    + apply upd_same.
    + intros u X. rewrite upd_other by auto. auto.
    + intros u. rewrite Q. who u t; [|tauto]. rewrite M. cbn. tauto.
  - constructor; simp; auto.
    + rewrite EO, !upd_same. cbn [length got waits]. repeat split; auto; try lia.
      * rewrite upd_other by auto. apply F; auto.
      * rewrite upd_other by auto. apply F; auto.
    + intros u. rewrite Q. who u t; [|tauto]. rewrite M. cbn. tauto.
Qed.

Lemma l_finish : forall s t c st s1 r, L s -> modes s t = Run -> stack s t = c :: st ->
  finish s t c st = Ok s1 r -> L s1.
Proof.
  intros s t c st s1 r H M S E. assert (EO : owner s = Some t) by (apply owner_in; auto; rewrite S; discriminate).
  destruct H as [O Q D]. rewrite EO in O. destruct O as (R & P & W & F). rewrite M, S in R. cbn [got length] in R.
  unfold finish in E. injection E as <- <-. apply (l_unlock _ t); simp; auto.
  - rewrite upd_same. lia.
  - intros u X. rewrite upd_other by auto. auto.
Qed.

Lemma l_step : forall s l s1 r, L s -> step s l = Ok s1 r -> L s1.
Proof.
  intros s l s1 r H E. destruct l as [t o i|t|t]; cbn [step] in E; destruct (modes s t) as [|c|c] eqn:M; try discriminate.
  - destruct o as [c|]; cbn [call] in E; [|injection E as <- <-; exact H].
    destruct i; cbn [negb] in E; injection E as <- <-; [|exact H]. apply l_lock; auto.
  - eapply l_go; eauto.
  - destruct (stack s t) as [|c st] eqn:S; [discriminate|]. eapply l_finish; eauto.
Qed.

Lemma l_run : forall s tr s2, run s tr s2 -> L s -> L s2.
Proof. induction 1 as [s|s l r s1 tr s2 E R IH]; intros H; auto. apply IH. eapply l_step; eauto. Qed.

(* What an unlock leaves alone. *)
Lemma unlock_same : forall s, flag (unlock s) = flag s /\ stack (unlock s) = stack s /\
  started (unlock s) = started s /\ finished (unlock s) = finished s.
Proof.
  intros s. unfold unlock. simp. destruct (Nat.eqb _ 0); [|auto]. unfold pop_node. simp. destruct (queue s); auto.
Qed.

(* All stacks but the owner's are empty, so the owner's after the unlock is
   still the only one. *)
Lemma hold_only : forall s t, L s -> (forall u, u <> t -> stack s u = []) -> hold s = stack s t.
Proof.
  intros s t H F. unfold hold. destruct (owner s) as [w|] eqn:E.
  - destruct (Nat.eq_dec w t) as [->|D]; [reflexivity|]. rewrite (F w) by auto.
    destruct H as [O _ _]. rewrite E in O. destruct O as (_ & _ & _ & G). symmetry. apply G. auto.
  - destruct H as [O _ _]. rewrite E in O. symmetry. apply O.
Qed.

Lemma others_empty : forall s t, L s -> owner s = Some t -> forall u, u <> t -> stack s u = [].
Proof. intros s t [O _ _] E u D. rewrite E in O. apply O. exact D. Qed.

Lemma hold_lock : forall s t c, L s -> hold (lock s t c) = hold s.
Proof.
  intros s t c [O _ _]. unfold lock. destruct (is_me (owner s) t) eqn:E; [reflexivity|].
  unfold hold. destruct (owner s) as [w|] eqn:EO; simp; [rewrite ?EO; reflexivity|]. rewrite ?EO. apply O.
Qed.

Lemma lock_same : forall s t c, flag (lock s t c) = flag s /\ started (lock s t c) = started s /\
  finished (lock s t c) = finished s /\ stack (lock s t c) = stack s.
Proof. intros. unfold lock. destruct (is_me _ _); [auto|]. destruct (owner s); auto. Qed.

(* The three kinds of steps, on the controls. *)
Lemma step_cases : forall s l s1 r, L s -> step s l = Ok s1 r ->
  (hold s1 = hold s /\ flag s1 = flag s /\ started s1 = started s /\ finished s1 = finished s /\
   forall c, returned r c -> flag s c = true) \/
  (exists t c, modes s t = Got c /\ flag s c = false /\ hold s1 = c :: hold s /\ flag s1 = flag s /\
               (owner s1 = Some t /\ modes s1 t = Run) /\
               started s1 = upd (started s) c (S (started s c)) /\ finished s1 = finished s /\ r = RNone) \/
  (exists c st, hold s = c :: st /\ hold s1 = st /\ flag s1 = upd (flag s) c true /\ started s1 = started s /\
                finished s1 = upd (finished s) c (S (finished s c)) /\ r = RRet 0 c).
Proof.
  intros s l s1 r H E. pose proof (l_step _ _ _ _ H E) as H1.
  destruct l as [t o i|t|t]; cbn [step] in E; destruct (modes s t) as [|c|c] eqn:M; try discriminate.
  - destruct o as [c|]; cbn [call] in E.
    + destruct i; cbn [negb] in E; injection E as <- <-.
      * left. destruct (lock_same s t c) as (-> & -> & -> & _). rewrite hold_lock by auto. repeat split; auto.
        intros d Q. discriminate.
      * left. repeat split; auto. intros d Q. discriminate.
    + injection E as <- <-. left. repeat split; auto. intros d Q. discriminate.
  - pose proof (owner_got _ _ _ H M) as EO. pose proof (others_empty _ _ H EO) as F.
    unfold go in E. destruct (flag s c) eqn:FL; injection E as <- <-.
    + left. destruct (unlock_same (set_mode s t Run)) as (A1 & A2 & A3 & A4). rewrite A1, A3, A4.
      rewrite (hold_only _ t H1) by (rewrite A2; exact F). rewrite A2. simp.
      rewrite (hold_only _ t H) by exact F. repeat split; auto. intros d Q. injection Q as <-. exact FL.
    + right. left. exists t, c. unfold hold. simp. rewrite EO, !upd_same. auto 12.
  - destruct (stack s t) as [|c st] eqn:ST; [discriminate|].
    assert (EO : owner s = Some t) by (apply owner_in; auto; rewrite ST; discriminate).
    pose proof (others_empty _ _ H EO) as F. unfold finish in E. injection E as <- <-.
    right. right. exists c, st.
    match goal with |- context [unlock ?x] => destruct (unlock_same x) as (A1 & A2 & A3 & A4) end.
    rewrite A1, A3, A4. rewrite (hold_only _ t H1); rewrite A2; simp.
    + rewrite (hold_only _ t H) by exact F. rewrite upd_same. auto 10.
    + intros u X. rewrite upd_other by auto. apply F. exact X.
Qed.

Lemma c_start : C start.
Proof. constructor; intros c; unfold start, hold; simp; cbn; [split; [discriminate|lia]|reflexivity]. Qed.

Lemma c_step : forall s l s1 r, L s -> C s -> step s l = Ok s1 r -> C s1.
Proof.
  intros s l s1 r H [F K] E.
  destruct (step_cases _ _ _ _ H E) as [(A & B & D & G & _)|[(t & c & M & FL & A & B & _ & D & G & _)|(c & st & A & B & D & G & I & _)]].
  - constructor; intros x; rewrite ?A, ?B, ?D, ?G; auto.
  - constructor; intros x; rewrite ?A, ?B, ?D, ?G; auto. unfold cnt. cbn [count_occ].
    pose proof (K x) as Kx. unfold cnt in Kx. who x c.
    + destruct (Nat.eq_dec c c); [lia|congruence].
    + destruct (Nat.eq_dec c x); [congruence|lia].
  - constructor; intros x; rewrite ?B, ?D, ?G, ?I.
    + who x c; [split; [lia|reflexivity]|apply F].
    + pose proof (K x) as Kx. rewrite A in Kx. unfold cnt in *. cbn [count_occ] in Kx. who x c.
      * destruct (Nat.eq_dec c c); [lia|congruence].
      * destruct (Nat.eq_dec c x); [congruence|lia].
Qed.

Lemma lc_run : forall s tr s2, run s tr s2 -> L s -> C s -> L s2 /\ C s2.
Proof. induction 1 as [s|s l r s1 tr s2 E R IH]; intros H K; auto. apply IH; [eapply l_step|eapply c_step]; eauto. Qed.

(* A thread that gets the lock by somebody's unlock finds no init routine going on. *)
Lemma got_step : forall s l s1 r, L s -> step s l = Ok s1 r -> forall u c, modes s1 u = Got c ->
  modes s u = Got c \/ (exists o i, l = LCall u o i /\ o = Some c) \/ hold s1 = [].
Proof.
  intros s l s1 r H E u c G. pose proof (l_step _ _ _ _ H E) as H1.
  assert (P : forall x, modes (unlock x) u = Got c -> modes x u = Got c \/ (owner (unlock x) = Some u /\ waits (modes x u) = true)).
  { intros x. unfold unlock. simp. destruct (Nat.eqb _ 0); [|auto]. unfold pop_node. simp.
    destruct (queue x) as [|v q]; simp; [auto|]. who u v; [|auto]. destruct (modes x v); auto. }
  destruct l as [t o i|t|t]; cbn [step] in E; destruct (modes s t) as [|d|d] eqn:M; try discriminate.
  - destruct o as [d|]; cbn [call] in E; [|injection E as <- <-; auto].
    destruct i; cbn [negb] in E; injection E as <- <-; [|auto].
    unfold lock in G. destruct (Nat.eq_dec u t) as [->|D].
    + right. left. exists (Some d), true. destruct (is_me _ _); [|destruct (owner s)]; simp;
        rewrite upd_same in G; try discriminate; injection G as ->; auto.
    + left. destruct (is_me _ _); [|destruct (owner s)]; simp; rewrite upd_other in G by auto; exact G.
  - pose proof (owner_got _ _ _ H M) as EO. unfold go in E. destruct (flag s d); injection E as <- <-.
    + destruct (P _ G) as [X|[X W]]; simp.
      * who u t; [discriminate|auto].
      * who u t; [discriminate|]. right. right. unfold hold. rewrite X.
        destruct (unlock_same (set_mode s t Run)) as (_ & A2 & _). rewrite A2. simp. eapply others_empty; eauto.
    + simp. who u t; [discriminate|auto].
  - destruct (stack s t) as [|d st] eqn:ST; [discriminate|].
    assert (EO : owner s = Some t) by (apply owner_in; auto; rewrite ST; discriminate).
    unfold finish in E. injection E as <- <-. destruct (P _ G) as [X|[X W]]; simp; [auto|].
    destruct (Nat.eq_dec u t) as [->|D]; [rewrite M in W; discriminate|].
    right. right. unfold hold. rewrite X.
    match goal with |- context [unlock ?x] => destruct (unlock_same x) as (_ & A2 & _) end.
    rewrite A2. simp. rewrite upd_other by auto. eapply others_empty; eauto.
Qed.

Lemma n_step : forall s l s1 r, L s -> C s -> N s -> not_reentrant s l -> step s l = Ok s1 r -> N s1.
Proof.
  intros s l s1 r H K [N1 N2 N3 N4] NR E. pose proof (got_step _ _ _ _ H E) as GS.
  assert (NG : forall u c, modes s1 u = Got c -> ~ In c (hold s) \/ hold s1 = []).
  { intros u c G. destruct (GS u c G) as [X|[(o & i & -> & ->)|X]]; [left; eapply N4; eauto| |auto].
    left. cbn [not_reentrant] in NR. intros Q. unfold hold in Q. destruct (owner s) as [w|] eqn:EO; [|contradiction].
    destruct (Nat.eq_dec u w) as [->|D]; [auto|].
    pose proof (l_step _ _ _ _ H E) as H1. pose proof (owner_got _ _ _ H1 G) as EO1.
    cbn [step] in E. destruct (modes s u); try discriminate. destruct i; cbn [call negb] in E; injection E as <- <-.
    - unfold lock in EO1. rewrite EO in EO1. cbn [is_me] in EO1. apply Nat.eqb_neq in D. rewrite Nat.eqb_sym, D in EO1.
      simp. apply Nat.eqb_neq in D. congruence.
    - congruence. }
  destruct (step_cases _ _ _ _ H E) as [(A & B & D & G & _)|[(t & c & M & FL & A & B & EO & D & G & _)|(c & st & A & B & D & G & I & _)]].
  - constructor; rewrite ?A, ?B, ?G; auto. intros u c M1. destruct (NG u c M1) as [X|X]; auto. rewrite A in X. rewrite X. auto.
  - pose proof (N4 _ _ M) as NI. constructor; rewrite ?A, ?B, ?G; auto.
    + constructor; auto.
    + intros x [<-|X]; auto.
    + intros u d M1. exfalso. pose proof (owner_got _ _ _ (l_step _ _ _ _ H E) M1) as EO1.
      destruct EO as [EO EM]. congruence.
  - rewrite A in *. inversion N1; subst. constructor; rewrite ?B, ?D, ?G, ?I; auto.
    + intros x X. rewrite upd_other by (intros ->; contradiction). apply N2. right. exact X.
    + intros x. who x c; [|apply N3]. destruct K as [F _].
      assert (FL : flag s c = false) by (apply N2; left; reflexivity).
      destruct (finished s c) eqn:Z; [lia|]. assert (flag s c = true) by (apply F; lia). congruence.
    + intros u x M1 X. destruct (NG u x M1) as [Y|Y]; [apply Y; right; exact X|rewrite Y in X; destruct X].
Qed.

Lemma n_start : N start.
Proof. constructor; unfold start, hold; simp; [constructor|intros c []|intros; lia|discriminate]. Qed.

Lemma nrun_run : forall s tr s2, nrun s tr s2 -> run s tr s2.
Proof. induction 1; [constructor|econstructor; eauto]. Qed.

Lemma n_run : forall s tr s2, nrun s tr s2 -> L s -> C s -> N s -> N s2.
Proof.
  induction 1 as [s|s l r s1 tr s2 NR E R IH]; intros H K M; auto.
  apply IH; [eapply l_step|eapply c_step|eapply n_step]; eauto.
Qed.
