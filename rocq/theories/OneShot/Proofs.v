From Coq Require Import ZArith Bool Lia List Arith.
From Verif.Park Require Import Model.
From Verif.OneShot Require Import Spec Model.
Import ListNotations.
Open Scope nat_scope.

Definition abs (c : cellv) : cell := match c with P0 => Empty | P1 => Full | PT => Waiting end.

Definition noU (f : nat -> qpc) : Prop := forall p, f p <> QUnpark.
Definition oneU (f : nat -> qpc) : Prop := exists p, f p = QUnpark /\ forall p', f p' = QUnpark -> p' = p.

(** which of the four protocol phases the run is in: waiter outside; registered; released, unpark under way; released,
    unpark done before the park took effect; [o] is the specification's "released" component. *)
Definition phase (s : st) (o : bool) : Prop :=
  match w s with
  | WIdle | WCas _ => ptr s <> PT /\ tick s = 0%Z /\ noU (q s) /\ o = false
  | WPark => (ptr s = PT /\ tick s = 0%Z /\ noU (q s) /\ o = false) \/
             (ptr s <> PT /\ tick s = 0%Z /\ oneU (q s) /\ o = true) \/
             (ptr s <> PT /\ tick s = 1%Z /\ noU (q s) /\ o = true)
  | WBlocked => (ptr s = PT /\ tick s = (-1)%Z /\ noU (q s) /\ o = false) \/
                (ptr s <> PT /\ tick s = (-1)%Z /\ oneU (q s) /\ o = true)
  end.
Definition Inv (keep : bool) (s : st) : Prop :=
  ab s = false /\ (w s <> WCas PT /\ forall p, q s p <> QCas P1) /\ exists o, legal keep (log s) = Some (abs (ptr s), o) /\ phase s o.

Lemma upd_same : forall f p x, upd f p x p = x.
Proof. intros. unfold upd. now rewrite Nat.eqb_refl. Qed.
Lemma noU_upd : forall f p x, noU f -> x <> QUnpark -> noU (upd f p x).
Proof. intros f p x H N i. unfold upd. destruct (i =? p); auto. Qed.
Lemma oneU_upd : forall f p x, oneU f -> f p <> QUnpark -> x <> QUnpark -> oneU (upd f p x).
Proof.
  intros f p x (k & A & B) N M. exists k. unfold upd. split.
  - destruct (Nat.eqb_spec k p) as [E|E]; [subst; congruence|exact A].
  - intros p'. destruct (p' =? p); [congruence|apply B].
Qed.
Lemma oneU_new : forall f p, noU f -> oneU (upd f p QUnpark).
Proof.
  intros f p H. exists p. rewrite upd_same. split; [reflexivity|]. intros p'. unfold upd.
  destruct (Nat.eqb_spec p' p) as [E|E]; [auto|]. intros X. exfalso. exact (H _ X).
Qed.
Lemma noU_done : forall f p, oneU f -> f p = QUnpark -> noU (upd f p QIdle).
Proof.
  intros f p (k & A & B) N i. unfold upd. destruct (Nat.eqb_spec i p) as [E|E]; [discriminate|].
  intros X. apply B in X. apply B in N. congruence.
Qed.
Lemma noU_oneU : forall f p, noU f -> f p = QUnpark -> False.
Proof. intros f p H N. exact (H _ N). Qed.

Lemma nop1 : forall f p x, (forall i, f i <> QCas P1) -> x <> QCas P1 -> forall i, upd f p x i <> QCas P1.
Proof. intros f p x H N i. unfold upd. destruct (i =? p); auto. Qed.

Ltac ph := cbn [w ptr tick q ab log] in *.

Lemma park_inv : forall keep s, Inv keep s -> w s = WPark -> Inv keep (do_park s).
Proof.
  intros keep s (A & B & o & L & P) W. unfold phase in P. rewrite W in P. unfold do_park, park_sub, RUNNING, UNBLOCK.
  destruct P as [(P & T & U & O)|[(P & T & U & O)|(P & T & U & O)]]; rewrite T; cbn [Z.eqb Pos.eqb];
    unfold Inv, phase; ph; (split; [exact A|]); (split; [split; [discriminate|exact (proj2 B)]|]).
  - exists o. split; [exact L|]. left. rewrite P. subst. auto.
  - exists o. split; [exact L|]. right. subst. auto.
  - exists false. cbn [legal]. rewrite L. subst o. split; [|auto]. destruct (abs (ptr s)); reflexivity.
Qed.
Lemma unpark_inv : forall keep s p, Inv keep s -> q s p = QUnpark -> Inv keep (do_unpark s p).
Proof.
  intros keep s p (A & B & o & L & P) W. unfold phase in P. unfold do_unpark, unpark_add, RUNNING, BLOCKED.
  remember (w s) as ws eqn:Ws; symmetry in Ws. destruct ws.
  - exfalso. destruct P as (_ & _ & U & _). exact (noU_oneU _ _ U W).
  - exfalso. destruct P as (_ & _ & U & _). exact (noU_oneU _ _ U W).
  - destruct P as [(P & T & U & O)|[(P & T & U & O)|(P & T & U & O)]]; try (exfalso; exact (noU_oneU _ _ U W)).
    rewrite T; cbn [Z.eqb Pos.eqb]. unfold Inv, phase; ph. split; [exact A|]. split; [split; [first [discriminate|exact (proj1 B)]|apply nop1; [exact (proj2 B)|discriminate]]|].
    exists o. split; [exact L|]. right. right. split; [exact P|]. split; [reflexivity|]. split; [|exact O].
    exact (noU_done _ _ U W).
  - destruct P as [(P & T & U & O)|(P & T & U & O)]; try (exfalso; exact (noU_oneU _ _ U W)).
    rewrite T; cbn [Z.eqb Pos.eqb]. unfold Inv, phase; ph. split; [exact A|]. split; [split; [first [discriminate|exact (proj1 B)]|apply nop1; [exact (proj2 B)|discriminate]]|].
    exists false. cbn [legal]. rewrite L. subst o. split; [destruct (abs (ptr s)); reflexivity|].
    split; [exact P|]. split; [reflexivity|]. split; [|reflexivity]. exact (noU_done _ _ U W).
Qed.

(** changing one poster's pc between non-unparking states keeps the phase *)
Lemma phase_q : forall s o p x l, phase s o -> q s p <> QUnpark -> x <> QUnpark ->
  phase (S_ (ptr s) (tick s) (w s) (upd (q s) p x) (ab s) l) o.
Proof.
  intros s o p x l P N M. unfold phase in *. ph.
  destruct (w s); intuition auto using noU_upd, oneU_upd.
Qed.
Lemma phase_same : forall s o l, phase s o -> phase (S_ (ptr s) (tick s) (w s) (q s) (ab s) l) o.
Proof. intros s o l P. exact P. Qed.
(** a post on a non-waiting cell keeps it non-waiting *)
Lemma phase_ptr : forall s o c p x l, phase s o -> ptr s <> PT -> c <> PT -> q s p <> QUnpark -> x <> QUnpark ->
  phase (S_ c (tick s) (w s) (upd (q s) p x) (ab s) l) o.
Proof.
  intros s o c p x l P N M Q X. unfold phase in *. ph.
  destruct (w s); intuition (auto using noU_upd, oneU_upd; congruence).
Qed.
Lemma phase_release : forall s o c p l, phase s o -> ptr s = PT -> c <> PT ->
  o = false /\ phase (S_ c (tick s) (w s) (upd (q s) p QUnpark) (ab s) l) true.
Proof.
  intros s o c p l P N M. unfold phase in *. ph.
  destruct (w s); intuition (auto using oneU_new; congruence).
Qed.

Lemma eqb_true : forall a b, cellv_eqb a b = true -> a = b.
Proof. intros [] []; cbn; congruence. Qed.

Lemma sem_step_inv : forall s a s', Inv false s -> sem_step s a = Some s' -> Inv false s'.
Proof.
  intros s a s' I E. destruct a as [|p]; cbn [sem_step] in E.
  - destruct (w s) eqn:W.
    + inversion E; subst; clear E. destruct I as (A & (B & B') & o & L & P). unfold Inv, phase in *. rewrite W in P. ph.
      split; [exact A|]. split; [|exists o; auto]. split; [|exact B']. destruct P as (P & _). intros X. inversion X. auto.
    + destruct (cellv_eqb (ptr s) e) eqn:Q.
      * apply eqb_true in Q. destruct I as (A & (B & B') & o & L & P). unfold phase in P. rewrite W in P, B.
        destruct P as (P & T & U & O). subst o.
        destruct e; inversion E; subst; clear E; unfold Inv, phase; ph; (split; [exact A|]); (split; [split; [discriminate|exact B']|]);
          exists false; cbn [legal]; rewrite L, Q; cbn.
        -- split; [reflexivity|]. left. auto.
        -- split; [reflexivity|]. split; [discriminate|auto].
        -- congruence.
      * inversion E; subst; clear E. destruct I as (A & (B & B') & o & L & P). unfold Inv, phase in *. rewrite W in P. ph.
        split; [exact A|]. split; [split; [discriminate|exact B']|]. exists o. auto.
    + inversion E; subst. now apply park_inv.
    + discriminate.
  - destruct (q s p) eqn:Q.
    + assert (N : q s p <> QUnpark) by congruence.
      destruct I as (A & (B & B') & o & L & P). destruct (ptr s) eqn:C; inversion E; subst; clear E.
      * unfold Inv; ph. split; [exact A|]. split; [split; [exact B|apply nop1; [exact B'|discriminate]]|]. exists o. split; [exact L|].
        rewrite <- C. apply (phase_q s o p _ (log s) P N). discriminate.
      * unfold Inv; ph. split; [exact A|]. split; [split; [exact B|exact B']|]. exists o. cbn [legal]. rewrite L. split; [reflexivity|].
        rewrite <- C. now apply phase_same.
      * unfold Inv; ph. split; [exact A|]. split; [split; [exact B|apply nop1; [exact B'|discriminate]]|]. exists o. split; [exact L|].
        rewrite <- C. apply (phase_q s o p _ (log s) P N). discriminate.
    + assert (N : q s p <> QUnpark) by congruence.
      destruct (cellv_eqb (ptr s) e) eqn:C.
      * apply eqb_true in C. destruct I as (A & (B & B') & o & L & P).
        destruct e; inversion E; subst; clear E; unfold Inv; ph; (split; [exact A|]);
          (split; [split; [exact B|apply nop1; [exact B'|discriminate]]|]); cbn [legal]; rewrite L, C.
        -- exists o. split; [reflexivity|]. apply phase_ptr; congruence.
        -- exfalso. exact (B' p Q).
        -- destruct (phase_release s o P0 p (Post p true :: log s) P C ltac:(discriminate)) as (O & R).
           exists true. subst o. split; [reflexivity|exact R].
      * inversion E; subst; clear E. destruct I as (A & (B & B') & o & L & P). unfold Inv; ph. split; [exact A|].
        split; [split; [exact B|apply nop1; [exact B'|discriminate]]|].
        exists o. split; [exact L|]. apply phase_q; congruence.
    + inversion E; subst. now apply unpark_inv.
Qed.
Lemma one_step_inv : forall s a s', Inv true s -> w s <> WCas P1 -> one_step s a = Some s' -> Inv true s'.
Proof.
  intros s a s' I NW E. destruct a as [|p]; cbn [one_step] in E.
  - destruct (w s) eqn:W.
    + destruct I as (A & (B & B') & o & L & P). unfold Inv, phase in *. rewrite W in P.
      destruct (ptr s) eqn:C; inversion E; subst; clear E; ph; (split; [exact A|]); (split; [split; [try discriminate|exact B']|]).
      * exists o. auto.
      * exists false. destruct P as (P & T & U & O). subst o. cbn [legal]. rewrite L. auto.
      * exfalso. now apply (proj1 P).
      * exfalso. now apply (proj1 P).
    + destruct (cellv_eqb (ptr s) e) eqn:Q.
      * apply eqb_true in Q. destruct I as (A & (B & B') & o & L & P). unfold phase in P. rewrite W in P, B.
        destruct P as (P & T & U & O). subst o.
        inversion E; clear E; unfold Inv, phase; ph; (split; [exact A|]); (split; [split; [discriminate|exact B']|]);
          exists false; cbn [legal]; rewrite L. destruct e; try congruence. rewrite Q. cbn.
        split; [reflexivity|]. left. auto.
      * inversion E; subst; clear E. destruct I as (A & (B & B') & o & L & P). unfold Inv, phase in *. rewrite W in P. ph.
        split; [exact A|]. split; [split; [discriminate|exact B']|]. exists o. auto.
    + inversion E; subst. now apply park_inv.
    + discriminate.
  - destruct (q s p) eqn:Q.
    + assert (N : q s p <> QUnpark) by congruence.
      destruct I as (A & (B & B') & o & L & P). destruct (ptr s) eqn:C; inversion E; subst; clear E;
        unfold Inv; ph; (split; [exact A|]); cbn [legal]; rewrite L.
      * split; [split; [exact B|exact B']|]. exists o. split; [reflexivity|].
        unfold phase in *. ph. rewrite C in P. destruct (w s); intuition (auto; discriminate).
      * split; [split; [exact B|exact B']|]. exists o. split; [reflexivity|].
        unfold phase in *. ph. rewrite C in P. destruct (w s); intuition (auto; discriminate).
      * split; [split; [exact B|apply nop1; [exact B'|discriminate]]|].
        destruct (phase_release s o P1 p (Post p true :: log s) P C ltac:(discriminate)) as (O & R).
        exists true. subst o. split; [reflexivity|exact R].
    + discriminate.
    + inversion E; subst. now apply unpark_inv.
Qed.
Lemma one_step_nocas1 : forall s a s', w s <> WCas P1 -> one_step s a = Some s' -> w s' <> WCas P1.
Proof.
  intros s a s' N E. destruct a as [|p]; cbn [one_step] in E.
  - destruct (w s) eqn:W.
    + destruct (ptr s); inversion E; subst; cbn; discriminate.
    + destruct (cellv_eqb _ _); inversion E; subst; cbn; discriminate.
    + inversion E; subst. unfold do_park. destruct (park_sub _) as [t []]; cbn; try discriminate; rewrite W; discriminate.
    + discriminate.
  - destruct (q s p) eqn:Q; try discriminate.
    + destruct (ptr s); inversion E; subst; exact N.
    + inversion E; subst. unfold do_unpark. destruct (unpark_add _) as [t []]; cbn; try discriminate; exact N.
Qed.
Lemma init_inv : forall k, Inv k init.
Proof.
  intros k. unfold Inv, phase, init; ph. split; [reflexivity|]. split; [split; intros; discriminate|].
  exists false. split; [reflexivity|]. repeat split; try discriminate.
Qed.
Lemma sem_inv : forall s, reach sem_step s -> Inv false s.
Proof. intros s R. induction R as [|s a s' R IH E]; [apply init_inv|exact (sem_step_inv _ _ _ IH E)]. Qed.
Lemma one_inv2 : forall s, reach one_step s -> Inv true s /\ w s <> WCas P1.
Proof.
  intros s R. induction R as [|s a s' R [IH N] E]; [split; [apply init_inv|discriminate]|].
  split; [exact (one_step_inv _ _ _ IH N E)|exact (one_step_nocas1 _ _ _ N E)].
Qed.
Lemma one_inv : forall s, reach one_step s -> Inv true s.
Proof. intros s R. exact (proj1 (one_inv2 s R)). Qed.

Lemma counts : forall keep l c o, legal keep l = Some (c, o) ->
  count is_reg l = count is_release l + b2n (waitingb c) /\ count is_release l = count is_wake l + b2n o /\
  (waitingb c = true -> o = false).
Proof.
  unfold count. intros keep. induction l as [|e l IH]; intros c o H; cbn [legal] in H.
  - inversion H. cbn. auto.
  - destruct (legal keep l) as [[c' o']|]; [|discriminate]. specialize (IH _ _ eq_refl).
    destruct e as [| | |p b]; [| | |destruct b]; destruct c', o'; cbn in H; inversion H; subst; clear H;
      cbn [filter is_reg is_release is_wake length b2n waitingb] in *; destruct keep; cbn [b2n waitingb] in *; intuition (try lia; try discriminate).
Qed.
Lemma keep_done : forall l c o, legal true l = Some (c, o) -> (existsb is_post l = true <-> c = Full).
Proof.
  induction l as [|e l IH]; intros c o H; cbn [legal] in H.
  - inversion H. cbn. split; discriminate.
  - destruct (legal true l) as [[c' o']|]; [|discriminate]. specialize (IH _ _ eq_refl).
    destruct e as [| | |p b]; [| | |destruct b]; destruct c', o'; cbn in H; inversion H; subst; clear H; cbn [existsb is_post orb];
      intuition discriminate.
Qed.
Lemma blocked_phase : forall keep s, Inv keep s -> w s = WBlocked -> ptr s = PT \/
  exists p, q s p = QUnpark /\ w (do_unpark s p) = WIdle.
Proof.
  intros keep s (A & B & o & L & P) W. unfold phase in P. rewrite W in P.
  destruct P as [(P & T & U & O)|(P & T & (p & U & _) & O)]; [left; exact P|right].
  exists p. split; [exact U|]. unfold do_unpark, unpark_add, RUNNING, BLOCKED. rewrite T. reflexivity.
Qed.
(** the other side: a waiter that is released and has not parked yet returns from park at once *)
Lemma parking_phase : forall keep s, Inv keep s -> w s = WPark -> ptr s <> PT -> (forall p, q s p <> QUnpark) ->
  w (do_park s) = WIdle.
Proof.
  intros keep s (A & B & o & L & P) W N U. unfold phase in P. rewrite W in P.
  destruct P as [(P & T & _)|[(P & T & (p & V & _) & O)|(P & T & _ & O)]].
  - congruence.
  - exfalso. exact (U p V).
  - unfold do_park, park_sub, RUNNING, UNBLOCK. rewrite T. reflexivity.
Qed.
