(** Invariant of the monitor model. *)
From Coq Require Import List Bool Arith Lia.
From Verif.Monitor Require Import Spec Model.
Import ListNotations.

Lemma upd_same {A} (f : nat -> A) i x : upd f i x i = x. Proof. unfold upd; now rewrite Nat.eqb_refl. Qed.
Lemma upd_other {A} (f : nat -> A) i x j : j <> i -> upd f i x j = f j. Proof. intro H; unfold upd; destruct (Nat.eqb_spec j i); congruence. Qed.
Ltac eqc x t N := let E := fresh in destruct (Nat.eqb_spec x t) as [E|N]; [subst x|].
Ltac ru := repeat first [rewrite upd_same in *|rewrite upd_other in * by congruence].
Lemma exb m l : existsb (Nat.eqb m) l = true <-> In m l.
Proof. rewrite existsb_exists; split; [intros (x & H & E); apply Nat.eqb_eq in E; now subst|intro H; exists m; split; auto; apply Nat.eqb_refl]. Qed.
Lemma exbP m l : reflect (In m l) (existsb (Nat.eqb m) l).
Proof. apply iff_reflect; symmetry; apply exb. Qed.

Definition wtp (x : thr) (m : nat) : Prop := (pcs x = Slp \/ pcs x = Res) /\ In m (nod x).
Definition away (x : thr) (m : nat) : Prop := pcs x = Slp /\ In m (nod x) /\ ~ In m (rdy x).
Definition cnt (m : nat) (l : list nat) : nat := count_occ Nat.eq_dec l m.
Definition cntf (m : nat) (f : list gcall) : nat := cnt m (concat (map snd f)).
(** r is the rest of the innermost call's monitors *)
Definition sfx (r : list nat) (f : list gcall) : Prop := exists c p q, f = (c, p ++ r) :: q.
Definition kinv (k : pc) (f : list gcall) (d : nat -> nat) : Prop := forall m,
  match k with
  | Ent r => d m + cnt m r = cntf m f /\ sfx r f
  | Blk b r => d m + cnt m (b :: r) = cntf m f /\ sfx (b :: r) f
  | Lea r => d m = cntf m f + cnt m r
  | _ => d m = cntf m f
  end.

Record Inv (s : st) : Prop := {
  iA : forall t m, dep (ts s t) m > 0 -> away (ts s t) m \/ own (ms s m) = Some t;
  iB : forall t m, own (ms s m) = Some t -> rc (ms s m) = dep (ts s t) m \/ wtp (ts s t) m;
  iC : forall t m, wtp (ts s t) m -> sav (ts s t) m = dep (ts s t) m /\ dep (ts s t) m > 0;
  iE : forall m w k, mask (ms s m) = Some (w, k) -> own (ms s m) = Some w /\ In w (sig (ms s m));
  iF : forall m w, In w (sig (ms s m)) -> away (ts s w) m;
  iFn : forall m, NoDup (sig (ms s m));
  iG : forall c w, In w (cq s c) -> pcs (ts s w) = Slp /\ rdy (ts s w) = [] /\ cm s c = Some (nod (ts s w));
  iGn : forall c, NoDup (cq s c);
  iG1 : forall c d w, In w (cq s c) -> In w (cq s d) -> c = d;
  iG2 : forall c m w, In w (cq s c) -> ~ In w (sig (ms s m));
  iH : forall m t, In t (entry (ms s m)) <-> exists r, pcs (ts s t) = Blk m r;
  iHn : forall m, NoDup (entry (ms s m));
  iO : forall m t r, pcs (ts s t) = Blk m r -> own (ms s m) <> Some t /\ own (ms s m) <> None;
  iI : forall m, own (ms s m) = None -> sig (ms s m) = [];
  iJ : forall w, pcs (ts s w) = Slp -> (exists c, In w (cq s c)) \/ (forall m, In m (nod (ts s w)) -> In m (rdy (ts s w)) \/ In w (sig (ms s m)));
  iJn : forall w, pcs (ts s w) = Slp -> exists m, In m (nod (ts s w)) /\ ~ In m (rdy (ts s w));
  iK : forall t, kinv (pcs (ts s t)) (fr (ts s t)) (dep (ts s t)) }.

Lemma init_inv : Inv init.
Proof.
  constructor; unfold init, wtp, away; cbn [ms ts cq cm own rc entry sig mask pcs fr nod rdy sav acc dep]; intros;
    try discriminate; try contradiction; try (now constructor); try lia; try tauto; auto.
  all: try match goal with H : _ /\ _ |- _ => destruct H as [[H|H] _]; discriminate end.
  all: try (split; [contradiction|intros [r H]; discriminate]).
  all: intros m; reflexivity.
Qed.

Definition calm (k : pc) : Prop := match k with Run | Ent _ | Lea _ => True | _ => False end.
Lemma calm_run : calm Run. Proof. exact Logic.I. Qed.
Lemma calm_ent r : calm (Ent r). Proof. exact Logic.I. Qed.
Lemma calm_lea r : calm (Lea r). Proof. exact Logic.I. Qed.
Global Hint Resolve calm_run calm_ent calm_lea : core.
Lemma calm_wtp x m : calm (pcs x) -> ~ wtp x m. Proof. intros C [[H|H] _]; rewrite H in C; exact C. Qed.
Lemma calm_away x m : calm (pcs x) -> ~ away x m. Proof. intros C [H _]; rewrite H in C; exact C. Qed.
Lemma calm_slp x : calm (pcs x) -> pcs x <> Slp. Proof. intros C H; rewrite H in C; exact C. Qed.
Lemma calm_blk x m r : calm (pcs x) -> pcs x <> Blk m r. Proof. intros C H; rewrite H in C; exact C. Qed.
Global Hint Resolve calm_wtp calm_away calm_slp calm_blk : core.
Ltac sf := cbn [ms ts cq cm own rc entry sig mask pcs fr nod rdy sav acc dep setM setT] in *.
(** the thread's own bookkeeping *)
Lemma inv_T s t x : Inv s -> calm (pcs (ts s t)) -> calm (pcs x) -> nod x = nod (ts s t) -> rdy x = rdy (ts s t) -> sav x = sav (ts s t) -> (forall m, dep x m = dep (ts s t) m) ->
  kinv (pcs x) (fr x) (dep x) -> Inv (setT s t x).
Proof.
  intros I C D En Er Es Ed K.
  constructor; unfold setT; sf.
  - intros u m. eqc u t N; ru; [rewrite Ed; intro H; destruct (iA s I t m H) as [A|A]; auto; try exact (False_ind _ (calm_away _ _ C A))|apply (iA s I)].
  - intros u m H. eqc u t N; ru; [|now apply (iB s I)]. rewrite Ed. destruct (iB s I t m H) as [A|A]; auto. exfalso; eapply calm_wtp; [exact C|exact A].
  - intros u m H. eqc u t N; ru; [exfalso; eapply calm_wtp; [exact D|exact H]|now apply (iC s I)].
  - apply (iE s I).
  - intros m w H. pose proof (iF s I m w H) as A. eqc w t N; ru; auto. exfalso; eapply calm_away; [exact C|exact A].
  - apply (iFn s I).
  - intros c w H. pose proof (iG s I c w H) as (A & _). eqc w t N; ru; [exfalso; eapply calm_slp; [exact C|exact A]|now apply (iG s I)].
  - apply (iGn s I).
  - apply (iG1 s I).
  - apply (iG2 s I).
  - intros m u. rewrite (iH s I m u). eqc u t N; ru; [|reflexivity]. split; intros [r H]; exfalso; eapply calm_blk; [exact C|exact H|exact D|exact H].
  - apply (iHn s I).
  - intros m u r. eqc u t N; ru; [intro H; exfalso; eapply calm_blk; [exact D|exact H]|apply (iO s I)].
  - apply (iI s I).
  - intros w. eqc w t N; ru; [intro H; exfalso; eapply calm_slp; [exact D|exact H]|apply (iJ s I)].
  - intros w. eqc w t N; ru; [intro H; exfalso; eapply calm_slp; [exact D|exact H]|apply (iJn s I)].
  - intros u. eqc u t N; ru; auto. apply (iK s I).
Qed.
(** t, running, takes m whose owner has given it up *)
Lemma inv_take s t m x y : Inv s -> calm (pcs (ts s t)) ->
  (forall w, own (ms s m) = Some w -> away (ts s w) m) ->
  own x = Some t -> rc x = 1 -> entry x = entry (ms s m) -> sig x = sig (ms s m) -> mask x = None ->
  calm (pcs y) -> (forall i, dep y i = if i =? m then S (dep (ts s t) i) else dep (ts s t) i) -> kinv (pcs y) (fr y) (dep y) ->
  Inv (setT (setM s m x) t y).
Proof.
  intros I C G E1 E2 E3 E4 E5 D Ed K.
  assert (Z : dep (ts s t) m = 0).
  { destruct (dep (ts s t) m) eqn:E; auto. exfalso. destruct (iA s I t m) as [A|A]; [lia|exact (calm_away _ _ C A)|]. apply (calm_away _ _ C (G t A)). }
  constructor; unfold setT, setM; sf.
  - intros u i. eqc u t N; ru.
    + eqc i m M; ru; auto. rewrite Ed. apply Nat.eqb_neq in M as M'; rewrite M'. intro H; destruct (iA s I t i H) as [A|A]; auto. exact (False_ind _ (calm_away _ _ C A)).
    + intro H. destruct (iA s I u i H) as [A|A]; auto. eqc i m M; ru; auto.
  - intros u i. eqc i m M; ru.
    + intro H. assert (u = t) by congruence. subst u. ru. rewrite Ed, Nat.eqb_refl, Z. auto.
    + intro H. eqc u t N; ru; [|now apply (iB s I)]. rewrite Ed. apply Nat.eqb_neq in M as M'; rewrite M'. destruct (iB s I t i H) as [A|A]; auto. exfalso; eapply calm_wtp; [exact C|exact A].
  - intros u i H. eqc u t N; ru; [exfalso; eapply calm_wtp; [exact D|exact H]|now apply (iC s I)].
  - intros i w k. eqc i m M; ru; [congruence|apply (iE s I)].
  - intros i w H. assert (A : away (ts s w) i). { apply (iF s I). eqc i m M; ru; auto. congruence. }
    eqc w t N; ru; auto. exfalso; eapply calm_away; [exact C|exact A].
  - intros i. eqc i m M; ru; [rewrite E4|]; apply (iFn s I).
  - intros c w H. pose proof (iG s I c w H) as (A & _). eqc w t N; ru; [exfalso; eapply calm_slp; [exact C|exact A]|now apply (iG s I)].
  - apply (iGn s I).
  - apply (iG1 s I).
  - intros c i w H. eqc i m M; ru; [rewrite E4|]; now apply (iG2 s I) with c.
  - intros i u. assert (E : entry (upd (ms s) m x i) = entry (ms s i)) by (eqc i m M; ru; auto). rewrite E, (iH s I i u). eqc u t N; ru; [|reflexivity]. split; intros [r H]; exfalso; eapply calm_blk; [exact C|exact H|exact D|exact H].
  - intros i. eqc i m M; ru; [rewrite E3|]; apply (iHn s I).
  - intros i u r. eqc u t N; ru; [intro H; exfalso; eapply calm_blk; [exact D|exact H]|]. intro H. eqc i m M; ru; [|now apply (iO s I) with r]. rewrite E1; split; congruence.
  - intros i. eqc i m M; ru; [congruence|apply (iI s I)].
  - intros w. eqc w t N; ru; [intro H; exfalso; eapply calm_slp; [exact D|exact H]|]. intro H. destruct (iJ s I w H) as [A|A]; auto. right; intros i P. destruct (A i P); auto. right. eqc i m M; ru; auto; congruence.
  - intros w. eqc w t N; ru; [intro H; exfalso; eapply calm_slp; [exact D|exact H]|apply (iJn s I)].
  - intros u. eqc u t N; ru; auto. apply (iK s I).
Qed.
(** an owner that is not waiting for m changes its recursion count and depth together *)
Lemma inv_rec s t m x y : Inv s -> calm (pcs (ts s t)) -> own (ms s m) = Some t ->
  own x = Some t -> entry x = entry (ms s m) -> sig x = sig (ms s m) -> mask x = mask (ms s m) ->
  calm (pcs y) -> dep y m = rc x -> (forall i, i <> m -> dep y i = dep (ts s t) i) -> kinv (pcs y) (fr y) (dep y) ->
  Inv (setT (setM s m x) t y).
Proof.
  intros I C O E1 E3 E4 E5 D Ed Ed2 K.
  constructor; unfold setT, setM; sf.
  - intros u i. eqc u t N; ru.
    + eqc i m M; ru; auto. rewrite (Ed2 _ M). intro H; destruct (iA s I t i H) as [A|A]; auto. exact (False_ind _ (calm_away _ _ C A)).
    + intro H. destruct (iA s I u i H) as [A|A]; auto. eqc i m M; ru; auto. congruence.
  - intros u i. eqc i m M; ru.
    + intro H. assert (u = t) by congruence. subst u. ru. auto.
    + intro H. eqc u t N; ru; [|now apply (iB s I)]. rewrite (Ed2 _ M). destruct (iB s I t i H) as [A|A]; auto. exfalso; eapply calm_wtp; [exact C|exact A].
  - intros u i H. eqc u t N; ru; [exfalso; eapply calm_wtp; [exact D|exact H]|now apply (iC s I)].
  - intros i w k. eqc i m M; ru; [rewrite E5, E4; intro H; destruct (iE s I m w k H); split; congruence|apply (iE s I)].
  - intros i w H. assert (A : away (ts s w) i). { apply (iF s I). eqc i m M; ru; auto. congruence. }
    eqc w t N; ru; auto. exfalso; eapply calm_away; [exact C|exact A].
  - intros i. eqc i m M; ru; [rewrite E4|]; apply (iFn s I).
  - intros c w H. pose proof (iG s I c w H) as (A & _). eqc w t N; ru; [exfalso; eapply calm_slp; [exact C|exact A]|now apply (iG s I)].
  - apply (iGn s I).
  - apply (iG1 s I).
  - intros c i w H. eqc i m M; ru; [rewrite E4|]; now apply (iG2 s I) with c.
  - intros i u. assert (E : entry (upd (ms s) m x i) = entry (ms s i)) by (eqc i m M; ru; auto). rewrite E, (iH s I i u). eqc u t N; ru; [|reflexivity]. split; intros [r H]; exfalso; eapply calm_blk; [exact C|exact H|exact D|exact H].
  - intros i. eqc i m M; ru; [rewrite E3|]; apply (iHn s I).
  - intros i u r. eqc u t N; ru; [intro H; exfalso; eapply calm_blk; [exact D|exact H]|]. intro H. eqc i m M; ru; [|now apply (iO s I) with r]. rewrite E1; split; congruence.
  - intros i. eqc i m M; ru; [congruence|apply (iI s I)].
  - intros w. eqc w t N; ru; [intro H; exfalso; eapply calm_slp; [exact D|exact H]|]. intro H. destruct (iJ s I w H) as [A|A]; auto. right; intros i P. destruct (A i P); auto. right. eqc i m M; ru; auto; congruence.
  - intros w. eqc w t N; ru; [intro H; exfalso; eapply calm_slp; [exact D|exact H]|apply (iJn s I)].
  - intros u. eqc u t N; ru; auto. apply (iK s I).
Qed.
(** the value of accept is not part of the invariant *)
Lemma inv_acc s w i : Inv s -> Inv (setacc s w i).
Proof.
  intro I. destruct i as [i|]; [|exact I]. unfold setacc.
  assert (E : forall t, let x := ts (setT s w (Thr (pcs (ts s w)) (fr (ts s w)) (nod (ts s w)) (rdy (ts s w)) (sav (ts s w)) (Some i) (dep (ts s w)))) t in
     pcs x = pcs (ts s t) /\ fr x = fr (ts s t) /\ nod x = nod (ts s t) /\ rdy x = rdy (ts s t) /\ sav x = sav (ts s t) /\ dep x = dep (ts s t)).
  { intro t; cbn zeta. unfold setT; sf. eqc t w N; ru; sf; repeat split. }
  cbn zeta in E. set (s' := setT s w _) in *. 
  assert (Em : ms s' = ms s) by reflexivity. assert (Ec : cq s' = cq s) by reflexivity. assert (Ecm : cm s' = cm s) by reflexivity. clearbody s'.
  assert (W : forall t m, wtp (ts s' t) m <-> wtp (ts s t) m) by (intros t m; unfold wtp; destruct (E t) as (E1 & E2 & E3 & E4 & E5 & E6); rewrite ?E1, ?E3, ?E4; tauto).
  assert (Y : forall t m, away (ts s' t) m <-> away (ts s t) m) by (intros t m; unfold away; destruct (E t) as (E1 & E2 & E3 & E4 & E5 & E6); rewrite ?E1, ?E3, ?E4; tauto).
  destruct I as [A B C Ee F Fn G Gn G1 G2 H Hn O II J Jn K].
  constructor; rewrite ?Em, ?Ec, ?Ecm; auto.
  - intros t m. destruct (E t) as (E1 & E2 & E3 & E4 & E5 & E6). rewrite E6, Y. apply A.
  - intros t m. destruct (E t) as (E1 & E2 & E3 & E4 & E5 & E6). rewrite E6, W. apply B.
  - intros t m. destruct (E t) as (E1 & E2 & E3 & E4 & E5 & E6). rewrite E6, E5, W. apply C.
  - intros m t. rewrite Y. apply F.
  - intros c t. destruct (E t) as (E1 & E2 & E3 & E4 & E5 & E6). rewrite E1, E3, E4. apply G.
  - intros m t. destruct (E t) as (E1 & E2 & E3 & E4 & E5 & E6). rewrite E1. apply H.
  - intros m t. destruct (E t) as (E1 & E2 & E3 & E4 & E5 & E6). rewrite E1. apply O.
  - intros t. destruct (E t) as (E1 & E2 & E3 & E4 & E5 & E6). rewrite E1, E3, E4. apply J.
  - intros t. destruct (E t) as (E1 & E2 & E3 & E4 & E5 & E6). rewrite E1, E3, E4. apply Jn.
  - intros t. destruct (E t) as (E1 & E2 & E3 & E4 & E5 & E6). rewrite E1, E2, E6. apply K.
Qed.
(** t queues on m, owned by another *)
Lemma inv_block s t m r : Inv s -> pcs (ts s t) = Ent (m :: r) -> own (ms s m) <> Some t -> own (ms s m) <> None ->
  Inv (pcT (setM s m (Mon (own (ms s m)) (rc (ms s m)) (entry (ms s m) ++ [t]) (sig (ms s m)) (mask (ms s m)))) t (Blk m r)).
Proof.
  intros I P O1 O2. assert (C : calm (pcs (ts s t))) by (rewrite P; exact Logic.I).
  assert (Z : dep (ts s t) m = 0).
  { destruct (dep (ts s t) m) eqn:E; auto. exfalso. destruct (iA s I t m) as [A|A]; [lia|exact (calm_away _ _ C A)|congruence]. }
  constructor; unfold pcT, setT, setM; sf.
  - intros u i. eqc u t N; ru; sf; intro H; destruct (iA s I _ i H) as [A|A]; try (exact (False_ind _ (calm_away _ _ C A))); auto; right; eqc i m M; ru; sf; auto.
  - intros u i H. assert (H' : own (ms s i) = Some u) by (eqc i m M; ru; sf; auto). assert (R : rc (upd (ms s) m (Mon (own (ms s m)) (rc (ms s m)) (entry (ms s m) ++ [t]) (sig (ms s m)) (mask (ms s m))) i) = rc (ms s i)) by (eqc i m M; ru; auto).
    rewrite R. destruct (iB s I u i H') as [A|A]; eqc u t N; ru; sf; auto. exfalso; eapply calm_wtp; [exact C|exact A].
  - intros u i H. eqc u t N; ru; sf; [destruct H as [[H|H] _]; discriminate|now apply (iC s I)].
  - intros i w k. eqc i m M; ru; sf; apply (iE s I).
  - intros i w H. assert (A : away (ts s w) i). { apply (iF s I). eqc i m M; ru; sf; auto. }
    eqc w t N; ru; auto. exfalso; eapply calm_away; [exact C|exact A].
  - intros i. eqc i m M; ru; sf; apply (iFn s I).
  - intros c w H. pose proof (iG s I c w H) as (A & _). eqc w t N; ru; [exfalso; eapply calm_slp; [exact C|exact A]|now apply (iG s I)].
  - apply (iGn s I).
  - apply (iG1 s I).
  - intros c i w H. eqc i m M; ru; sf; now apply (iG2 s I) with c.
  - intros i u. eqc i m M; ru; sf.
    + rewrite in_app_iff, (iH s I m u). cbn [In]. eqc u t N; ru; sf; [split; eauto|split; [intros [H|[H|H]]; [auto|congruence|contradiction]|auto]].
    + rewrite (iH s I i u). eqc u t N; ru; sf; [|reflexivity]. rewrite P. split; intros [q H]; [discriminate|congruence].
  - intros i. eqc i m M; ru; sf; [|apply (iHn s I)]. apply NoDup_Add with (a := t) (l := entry (ms s m)); [rewrite <- (app_nil_r (entry (ms s m))) at 1; apply Add_app|].
    split; [apply (iHn s I)|]. rewrite (iH s I m t). intros [q H]; congruence.
  - intros i u q. eqc u t N; ru; sf; [intros [= <- <-]; ru; sf; auto|]. intro H. pose proof (iO s I i u q H). eqc i m M; ru; sf; auto.
  - intros i. eqc i m M; ru; sf; [congruence|apply (iI s I)].
  - intros w. eqc w t N; ru; sf; [discriminate|]. intro H. destruct (iJ s I w H) as [A|A]; auto. right; intros i Q. destruct (A i Q); auto. right. eqc i m M; ru; sf; auto.
  - intros w. eqc w t N; ru; sf; [discriminate|apply (iJn s I)].
  - intros u. eqc u t N; ru; sf; [|apply (iK s I)]. pose proof (iK s I t) as K; rewrite P in K. exact K.
Qed.
Lemma kinv_enter m r f d k : kinv (Ent (m :: r)) f d -> k = Ent r -> kinv k f (upd d m (S (d m))).
Proof.
  intros K -> i. specialize (K i). cbn [cnt count_occ] in *. unfold cnt in *. cbn [count_occ] in K. unfold upd. destruct K as [K (c & p & q & F)]; split.
  - destruct (Nat.eqb_spec i m) as [E|E]; [subst i|]; destruct (Nat.eq_dec m _); lia.
  - exists c, (p ++ [m]), q. now rewrite <- app_assoc.
Qed.
Lemma enter_inv s t m r g : Inv s -> pcs (ts s t) = Ent (m :: r) -> Inv (enter s t m r g).
Proof.
  intros I P. assert (C : calm (pcs (ts s t))) by (rewrite P; exact Logic.I).
  pose proof (iK s I t) as K. rewrite P in K.
  unfold enter. destruct (own (ms s m)) as [o|] eqn:O.
  - eqc o t N.
    + unfold deep, ownM. apply inv_rec; sf; auto.
      * rewrite upd_same. destruct (iB s I t m O) as [A|A]; [congruence|exfalso; eapply calm_wtp; [exact C|exact A]].
      * intros i Hi. now rewrite upd_other.
      * apply kinv_enter with r; auto.
    + destruct (is_accepted s m g) as [i|] eqn:A.
      * unfold is_accepted in A. destruct (mask (ms s m)) as [[w l]|] eqn:M; [|discriminate].
        destruct (iE s I m w l M) as [E1 E2]. assert (w = o) by congruence. subst w.
        pose proof (inv_acc s o i I) as I2.
        assert (Q : ms (setacc s o i) = ms s /\ ts (setacc s o i) t = ts s t /\ forall u, pcs (ts (setacc s o i) u) = pcs (ts s u) /\ nod (ts (setacc s o i) u) = nod (ts s u) /\ rdy (ts (setacc s o i) u) = rdy (ts s u)).
        { destruct i; [|repeat split]. unfold setacc, setT; sf. split; [reflexivity|split; [ru; reflexivity|]]. intro u; eqc u o Nu; ru; sf; repeat split. }
        destruct Q as (Q1 & Q2 & Q3).
        unfold deep. apply inv_take; sf; rewrite ?Q1, ?Q2; auto.
        -- intros w H. assert (w = o) by congruence. subst w. unfold away. destruct (Q3 o) as (-> & -> & ->). exact (iF s I m o E2).
        -- intros j. unfold setM; sf. rewrite ?Q2. unfold upd. destruct (Nat.eqb_spec j m); subst; auto.
        -- unfold setM; sf; rewrite ?Q2. apply kinv_enter with r; auto.
      * replace (Some o) with (own (ms s m)) by exact O. apply inv_block; auto; congruence.
  - pose proof (iI s I m O) as SI.
    assert (MN : mask (ms s m) = None). { destruct (mask (ms s m)) as [[w k]|] eqn:M; auto. destruct (iE s I m w k M); congruence. }
    unfold deep, ownM. apply inv_take; sf; auto.
    + intros w H; congruence.
    + intros j. unfold upd. destruct (Nat.eqb_spec j m); subst; auto.
    + apply kinv_enter with r; auto.
Qed.

Definition gave (s : st) (t m : nat) : Prop := own (ms s m) = Some t /\ mask (ms s m) = None /\ (away (ts s t) m \/ dep (ts s t) m = 0).
Lemma forallb_rd l rd : forallb (fun i => existsb (Nat.eqb i) rd) l = true <-> (forall i, In i l -> In i rd).
Proof. rewrite forallb_forall. split; intros H i Hi; specialize (H i Hi); now apply exb. Qed.
Lemma inv_next_sig s t m w r : Inv s -> gave s t m -> sig (ms s m) = w :: r -> Inv (next s m).
Proof.
  intros I (O & MN & Gv) ES. unfold next. rewrite ES. unfold check.
  pose proof (iF s I m w) as Fw. rewrite ES in Fw. specialize (Fw (or_introl eq_refl)). pose proof Fw as (Sw & Nw & Rw).
  pose proof (iFn s I m) as ND. rewrite ES in ND. inversion ND as [|? ? ND1 ND2]; subst.
  unfold setM; sf. set (b := forallb (fun i => existsb (Nat.eqb i) (m :: rdy (ts s w))) (nod (ts s w))).
  assert (Hb : b = true -> forall i, In i (nod (ts s w)) -> i = m \/ In i (rdy (ts s w))).
  { intro H. pose proof (proj1 (forallb_rd _ _) H) as H'. intros i Hi. destruct (H' i Hi); auto. }
  assert (Hb' : b = false -> exists i, In i (nod (ts s w)) /\ i <> m /\ ~ In i (rdy (ts s w))).
  { subst b; clear. induction (nod (ts s w)) as [|a l IH]; cbn [forallb]; [discriminate|].
    destruct (exbP a (m :: rdy (ts s w))) as [Q|Q]; cbn [andb]; intro H; [destruct (IH H) as (i & A & B & D); exists i; cbn [In]; auto|].
    exists a. cbn [In] in *. tauto || (split; [auto|split; intro; apply Q; auto]). }
  clearbody b.
  assert (K : forall c, ~ In w (cq s c)). { intros c H. apply (iG2 s I c m w H). rewrite ES; now left. }
  assert (Q : forall i, i <> m -> In w (sig (ms s i)) -> b = false).
  { intros i Ni Hi. destruct b; auto. destruct (iF s I i w Hi) as (_ & A & B). destruct (Hb eq_refl i A); contradiction. }
  constructor; unfold setT; sf.
  - intros u i. eqc i m M; ru; sf.
    + eqc u w Nu; ru; sf; auto. intro H. destruct (iA s I u m H) as [A|A]; auto. left. assert (u = t) by congruence; subst u. destruct Gv; auto. lia.
    + eqc u w Nu; ru; sf; [|apply (iA s I)]. intro H. destruct (iA s I w i H) as [A|A]; auto. destruct A as (A1 & A2 & A3).
      destruct b eqn:B.
      * destruct (Hb eq_refl i A2); contradiction.
      * left. unfold away; sf. repeat split; auto. intros [Z|Z]; congruence.
  - intros u i. eqc i m M; ru; sf.
    + intros [= <-]. ru; sf. right. split; auto. sf. destruct b; auto.
    + intro H. eqc u w Nu; ru; sf; [|now apply (iB s I)]. destruct (iB s I w i H) as [A|A]; auto. right. destruct A as [_ A]. split; auto. sf. destruct b; auto.
  - intros u i H. eqc u w Nu; ru; sf; [|now apply (iC s I)]. destruct H as [_ H]; sf. apply (iC s I). split; auto.
  - intros i v k. eqc i m M; ru; sf; [congruence|]. apply (iE s I).
  - intros i v H. assert (H' : In v (sig (ms s i))) by (eqc i m M; ru; sf; auto; rewrite ES; now right).
    pose proof (iF s I i v H') as A. eqc v w Nv; ru; sf; auto.
    assert (M : i <> m). { intro; subst i; ru; sf; contradiction. }
    rewrite (Q i M H'). destruct A as (A1 & A2 & A3). split; auto. split; auto. sf. intros [Z|Z]; congruence.
  - intros i. eqc i m M; ru; sf; auto. apply (iFn s I).
  - intros c v H. eqc v w Nv; [now apply K in H|]. ru. now apply (iG s I).
  - apply (iGn s I).
  - apply (iG1 s I).
  - intros c i v H. eqc i m M; ru; sf; [|now apply (iG2 s I) with c]. intro Z. apply (iG2 s I c m v H). rewrite ES; now right.
  - intros i u. match goal with |- In _ (entry ?z) <-> _ => assert (E : entry z = entry (ms s i)) by (eqc i m M; ru; auto) end. rewrite E, (iH s I i u). eqc u w Nu; ru; sf; [|reflexivity].
    rewrite Sw. split; intros [q H]; [discriminate|destruct b; discriminate].
  - intros i. eqc i m M; ru; sf; apply (iHn s I).
  - intros i u q H. assert (U : u <> w) by (intro; subst u; ru; sf; destruct b; congruence). ru. pose proof (iO s I i u q H) as [A B]. eqc i m M; ru; sf; auto. split; congruence.
  - intros i. eqc i m M; ru; sf; [discriminate|apply (iI s I)].
  - intros v. eqc v w Nv; ru; sf.
    + intros _. right. destruct (iJ s I w Sw) as [[c A]|A]; [now apply K in A|]. intros i Hi. destruct (A i Hi) as [B|B]; [left; now right|]. eqc i m M; ru; sf; [left; now left|now right].
    + intro H. destruct (iJ s I v H) as [A|A]; auto. right; intros i Hi. destruct (A i Hi) as [B|B]; auto. right. eqc i m M; ru; sf; auto. rewrite ES in B. destruct B; congruence.
  - intros v. eqc v w Nv; ru; sf; [|apply (iJn s I)]. destruct b eqn:B; [congruence|intros _]. destruct (Hb' eq_refl) as (i & A1 & A2 & A3). exists i. split; auto. intros [Z|Z]; congruence.
  - intros u. eqc u w Nu; ru; sf; [|apply (iK s I)]. pose proof (iK s I w) as Kw. rewrite Sw in *. destruct b; exact Kw.
Qed.
Lemma kinv_blk m q f d : kinv (Blk m q) f d -> kinv (Ent q) f (upd d m (S (d m))).
Proof. intro K. apply kinv_enter with q; auto. Qed.
Lemma inv_next_ent s t m u r : Inv s -> gave s t m -> sig (ms s m) = [] -> entry (ms s m) = u :: r -> Inv (next s m).
Proof.
  intros I (O & MN & Gv) ES EE. unfold next. rewrite ES, EE. unfold admit.
  assert (Hu : exists q, pcs (ts s u) = Blk m q) by (apply (iH s I); rewrite EE; now left). destruct Hu as [q Pu].
  unfold setM; sf. rewrite Pu. unfold deep; sf.
  pose proof (iHn s I m) as ND. rewrite EE in ND. inversion ND as [|? ? ND1 ND2]; subst.
  assert (NA : forall i, ~ away (ts s u) i) by (intros i [H _]; congruence).
  assert (NW : forall i, ~ wtp (ts s u) i) by (intros i [[H|H] _]; congruence).
  assert (Z : dep (ts s u) m = 0).
  { destruct (dep (ts s u) m) eqn:E; auto. exfalso. destruct (iA s I u m) as [A|A]; [lia|exact (NA _ A)|]. apply (iO s I m u q Pu) in A. exact A. }
  constructor; unfold setT; sf.
  - intros v i. eqc v u Nv; ru; sf.
    + eqc i m M; ru; sf; auto. intro H; destruct (iA s I u i H) as [A|A]; auto. destruct (NA _ A).
    + intro H. destruct (iA s I v i H) as [A|A]; auto. eqc i m M; ru; sf; auto. assert (v = t) by congruence; subst v. destruct Gv; [auto|lia].
  - intros v i. eqc i m M; ru; sf.
    + intros [= <-]; ru; sf; ru. rewrite Z; auto.
    + intro H. eqc v u Nv; ru; sf; [|now apply (iB s I)]. rewrite upd_other by auto. destruct (iB s I u i H) as [A|A]; auto. destruct (NW _ A).
  - intros v i H. eqc v u Nv; ru; sf; [destruct H as [[H|H] _]; discriminate|now apply (iC s I)].
  - intros i w k. eqc i m M; ru; sf; [congruence|apply (iE s I)].
  - intros i w H. eqc i m M; ru; sf; [contradiction|]. pose proof (iF s I i w H) as A. eqc w u N; ru; auto. destruct (NA _ A).
  - intros i. eqc i m M; ru; sf; [constructor|apply (iFn s I)].
  - intros c w H. pose proof (iG s I c w H) as (A & _). eqc w u N; ru; [congruence|now apply (iG s I)].
  - apply (iGn s I).
  - apply (iG1 s I).
  - intros c i w H. eqc i m M; ru; sf; [auto|now apply (iG2 s I) with c].
  - intros i v. pose proof (iH s I i v) as Q. eqc i m M; ru; sf.
    + rewrite EE in Q. cbn [In] in Q. eqc v u Nv; ru; sf; [split; [contradiction|intros [p H]; discriminate]|]. rewrite <- Q. split; [auto|intros [|]; congruence].
    + rewrite Q. eqc v u Nv; ru; sf; [|reflexivity]. split; intros [p H]; congruence.
  - intros i. eqc i m M; ru; sf; [auto|apply (iHn s I)].
  - intros i v p. eqc v u Nv; ru; sf; [discriminate|]. intro H. pose proof (iO s I i v p H) as [A B]. eqc i m M; ru; sf; auto. split; congruence.
  - intros i. eqc i m M; ru; sf; [discriminate|apply (iI s I)].
  - intros w. eqc w u N; ru; sf; [discriminate|]. intro H. destruct (iJ s I w H) as [A|A]; auto. right; intros i P. destruct (A i P) as [B|B]; auto. right. eqc i m M; ru; sf; auto. now rewrite ES in B.
  - intros w. eqc w u N; ru; sf; [discriminate|apply (iJn s I)].
  - intros v. eqc v u Nv; ru; sf; [|apply (iK s I)]. apply kinv_blk. rewrite <- Pu. apply (iK s I).
Qed.
Lemma inv_next_free s t m : Inv s -> gave s t m -> sig (ms s m) = [] -> entry (ms s m) = [] -> Inv (next s m).
Proof.
  intros I (O & MN & Gv) ES EE. unfold next. rewrite ES, EE. 
  constructor; unfold setM; sf.
  - intros v i H. destruct (iA s I v i H) as [A|A]; auto. eqc i m M; ru; sf; auto. assert (v = t) by congruence; subst v. destruct Gv; [auto|lia].
  - intros v i. eqc i m M; ru; sf; [discriminate|apply (iB s I)].
  - apply (iC s I).
  - intros i w k. eqc i m M; ru; sf; [congruence|apply (iE s I)].
  - intros i w H. eqc i m M; ru; sf; [contradiction|]. exact (iF s I i w H).
  - intros i. eqc i m M; ru; sf; [constructor|apply (iFn s I)].
  - apply (iG s I).
  - apply (iGn s I).
  - apply (iG1 s I).
  - intros c i w H. eqc i m M; ru; sf; [auto|now apply (iG2 s I) with c].
  - intros i v. pose proof (iH s I i v) as Q. eqc i m M; ru; sf; auto. now rewrite EE in Q.
  - intros i. eqc i m M; ru; sf; [constructor|apply (iHn s I)].
  - intros i v p H. eqc i m M; ru; sf; [|now apply (iO s I) with p]. exfalso. assert (In v (entry (ms s m))) by (apply (iH s I); eauto). rewrite EE in *; contradiction.
  - intros i. eqc i m M; ru; sf; [auto|apply (iI s I)].
  - intros w H. destruct (iJ s I w H) as [A|A]; auto. right; intros i P. destruct (A i P) as [B|B]; auto. right. eqc i m M; ru; sf; auto. now rewrite ES in B.
  - apply (iJn s I).
  - apply (iK s I).
Qed.
Lemma inv_next s t m : Inv s -> gave s t m -> Inv (next s m).
Proof.
  intros I G. destruct (sig (ms s m)) as [|w r] eqn:ES; [destruct (entry (ms s m)) as [|u r] eqn:EE|].
  - eapply inv_next_free; eauto.
  - eapply inv_next_ent; eauto.
  - eapply inv_next_sig; eauto.
Qed.
(** next on m leaves other monitors alone, and a thread waiting on a condition *)
Lemma next_ms s m i : i <> m -> ms (next s m) i = ms s i.
Proof.
  intro N. unfold next. destruct (sig (ms s m)); [destruct (entry (ms s m))|]; cbn [check admit setM setT ms]; try now rewrite upd_other.
  unfold admit. destruct (pcs _); cbn [setM deep setT ms]; now rewrite upd_other.
Qed.
Lemma next_cq s m : cq (next s m) = cq s /\ cm (next s m) = cm s.
Proof. unfold next. destruct (sig (ms s m)); [destruct (entry (ms s m))|]; cbn [check setM setT cq cm]; auto. unfold admit; destruct (pcs _); auto. Qed.
Lemma next_ts s m t : ~ In t (sig (ms s m)) -> ~ In t (entry (ms s m)) -> ts (next s m) t = ts s t.
Proof.
  intros A B. unfold next. destruct (sig (ms s m)) as [|w r]; [destruct (entry (ms s m)) as [|u q]|]; [reflexivity| |].
  - assert (t <> u) by (intro; subst; apply B; now left). unfold admit. destruct (pcs _); cbn [setM deep setT ts]; auto. now rewrite upd_other.
  - assert (t <> w) by (intro; subst; apply A; now left). cbn [check setM setT ts]. now rewrite upd_other.
Qed.
Lemma leave_inv s t m r : Inv s -> pcs (ts s t) = Lea (m :: r) -> Inv (leave s t m r).
Proof.
  intros I P. assert (C : calm (pcs (ts s t))) by (rewrite P; exact Logic.I).
  pose proof (iK s I t) as K. rewrite P in K.
  assert (D : dep (ts s t) m > 0). { rewrite (K m). unfold cnt. cbn [count_occ]. destruct (Nat.eq_dec m m); [lia|congruence]. }
  assert (O : own (ms s m) = Some t). { destruct (iA s I t m D) as [A|A]; auto. exact (False_ind _ (calm_away _ _ C A)). }
  assert (R : rc (ms s m) = dep (ts s t) m). { destruct (iB s I t m O) as [A|A]; auto. exact (False_ind _ (calm_wtp _ _ C A)). }
  assert (MN : mask (ms s m) = None). { destruct (mask (ms s m)) as [[w k]|] eqn:M; auto. destruct (iE s I m w k M) as [A B]. apply (iF s I) in B. assert (w = t) by congruence; subst w. exact (False_ind _ (calm_away _ _ C B)). }
  set (y := Thr (Lea r) (fr (ts s t)) (nod (ts s t)) (rdy (ts s t)) (sav (ts s t)) (acc (ts s t)) (upd (dep (ts s t)) m (pred (dep (ts s t) m)))).
  assert (Ky : kinv (pcs y) (fr y) (dep y)).
  { subst y; sf. intros i. specialize (K i). unfold cnt in *. cbn [count_occ] in K. unfold upd. destruct (Nat.eqb_spec i m) as [E|E]; [subst i|]; destruct (Nat.eq_dec m _); try lia; congruence. }
  assert (J : Inv (setT (setM s m (Mon (own (ms s m)) (pred (rc (ms s m))) (entry (ms s m)) (sig (ms s m)) (mask (ms s m)))) t y)).
  { apply inv_rec; sf; auto; subst y; sf.
    - rewrite upd_same. now rewrite R.
    - intros i Hi. now rewrite upd_other. }
  unfold leave. fold y. destruct (Nat.eqb_spec (pred (rc (ms s m))) 0) as [E|E]; auto.
  apply inv_next with t; auto. unfold gave, setT, setM; sf. ru; sf. split; [auto|split; [auto|right]]. subst y; sf. rewrite upd_same. congruence.
Qed.
Definition slept (s : st) (t : nat) (l : list nat) : thr := Thr Slp (fr (ts s t)) l [] (fun m => rc (ms s m)) None (dep (ts s t)).
Lemma run_own s t m : Inv s -> pcs (ts s t) = Run -> dep (ts s t) m > 0 -> own (ms s m) = Some t /\ rc (ms s m) = dep (ts s t) m /\ mask (ms s m) = None.
Proof.
  intros I P D. assert (C : calm (pcs (ts s t))) by (rewrite P; exact Logic.I).
  assert (O : own (ms s m) = Some t) by (destruct (iA s I t m D) as [A|A]; auto; exact (False_ind _ (calm_away _ _ C A))). split; auto. split.
  - destruct (iB s I t m O) as [A|A]; auto; exact (False_ind _ (calm_wtp _ _ C A)).
  - destruct (mask (ms s m)) as [[w k]|] eqn:M; auto. destruct (iE s I m w k M) as [A B]. apply (iF s I) in B. assert (w = t) by congruence; subst w. exact (False_ind _ (calm_away _ _ C B)).
Qed.
Lemma holdsP s t l : holds s t l = true <-> forall m, In m l -> dep (ts s t) m > 0.
Proof. unfold holds. rewrite forallb_forall. split; intros H m Hm; specialize (H m Hm); [apply Nat.ltb_lt in H|apply Nat.ltb_lt]; lia. Qed.
Lemma inv_wait s t l c : Inv s -> pcs (ts s t) = Run -> (forall m, In m l -> dep (ts s t) m > 0) -> l <> [] -> (cm s c = Some l \/ cm s c = None) ->
  Inv (S_ (ms s) (upd (ts s) t (slept s t l)) (upd (cq s) c (cq s c ++ [t])) (upd (cm s) c (Some l))).
Proof.
  intros I P HD NE B. assert (C : calm (pcs (ts s t))) by (rewrite P; exact Logic.I).
  assert (NQ : forall d, ~ In t (cq s d)). { intros d H. destruct (iG s I d t H) as [A _]. congruence. }
  assert (NS : forall i, ~ In t (sig (ms s i))). { intros i H. exact (calm_away _ _ C (iF s I i t H)). }
  constructor; unfold slept; sf.
  - intros u i. eqc u t N; ru; sf; [|apply (iA s I)]. intro H. destruct (iA s I t i H) as [A|A]; auto. exact (False_ind _ (calm_away _ _ C A)).
  - intros u i H. eqc u t N; ru; sf; [|now apply (iB s I)]. destruct (iB s I t i H) as [A|A]; auto. exact (False_ind _ (calm_wtp _ _ C A)).
  - intros u i. eqc u t N; ru; sf; [|apply (iC s I)]. intros [_ H]; sf. specialize (HD i H). destruct (run_own s t i I P HD) as (_ & R & _); auto.
  - apply (iE s I).
  - intros i w H. eqc w t N; [destruct (NS _ H)|]. ru. now apply (iF s I).
  - apply (iFn s I).
  - intros d w H. eqc w t N; ru; sf.
    + split; auto. split; auto. destruct (Nat.eqb_spec d c); [subst; now ru|]. ru. destruct (NQ _ H).
    + eqc d c M; ru; [|now apply (iG s I)]. apply in_app_iff in H. destruct H as [H|[H|[]]]; [|congruence]. destruct (iG s I c w H) as (A1 & A2 & A3). split; auto. split; auto. destruct B; congruence.
  - intros d. eqc d c M; ru; [|apply (iGn s I)]. apply NoDup_Add with (a := t) (l := cq s c); [rewrite <- (app_nil_r (cq s c)) at 1; apply Add_app|]. split; [apply (iGn s I)|apply NQ].
  - intros d e w H1 H2. eqc w t N.
    + destruct (Nat.eqb_spec d c); [|ru; destruct (NQ _ H1)]. destruct (Nat.eqb_spec e c); [|ru; destruct (NQ _ H2)]. congruence.
    + assert (forall d, In w (upd (cq s) c (cq s c ++ [t]) d) -> In w (cq s d)). { intros f F. eqc f c M; ru; auto. apply in_app_iff in F. destruct F as [F|[F|[]]]; auto; congruence. } apply (iG1 s I) with w; auto.
  - intros d i w H. eqc w t N; auto. assert (In w (cq s d)). { eqc d c M; ru; auto. apply in_app_iff in H. destruct H as [F|[F|[]]]; auto; congruence. } now apply (iG2 s I) with d.
  - intros i u. rewrite (iH s I i u). eqc u t N; ru; sf; [|reflexivity]. rewrite P; split; intros [q H]; discriminate.
  - apply (iHn s I).
  - intros i u q. eqc u t N; ru; sf; [discriminate|apply (iO s I)].
  - apply (iI s I).
  - intros w. eqc w t N; ru; sf; [intros _; left; exists c; ru; apply in_app_iff; right; now left|]. intro H. destruct (iJ s I w H) as [[d A]|A]; auto. left; exists d. eqc d c M; ru; auto. apply in_app_iff; auto.
  - intros w. eqc w t N; ru; sf; [intros _|apply (iJn s I)]. destruct l as [|a l]; [congruence|]. exists a; split; [now left|auto].
  - intros u. eqc u t N; ru; sf; [|apply (iK s I)]. pose proof (iK s I t) as K. rewrite P in K. exact K.
Qed.
Lemma inv_sleeppush s t l : Inv s -> pcs (ts s t) = Run -> (forall m, In m l -> dep (ts s t) m > 0) -> l <> [] -> Inv (push (sleep s t l) t l).
Proof.
  intros I P HD NE. assert (C : calm (pcs (ts s t))) by (rewrite P; exact Logic.I).
  assert (NQ : forall d, ~ In t (cq s d)). { intros d H. destruct (iG s I d t H) as [A _]. congruence. }
  assert (NS : forall i, ~ In t (sig (ms s i))). { intros i H. exact (calm_away _ _ C (iF s I i t H)). }
  unfold push, sleep, setT. fold (slept s t l). sf.
  set (M := fun m => if existsb (Nat.eqb m) l then Mon (own (ms s m)) (rc (ms s m)) (entry (ms s m)) (t :: sig (ms s m)) (mask (ms s m)) else ms s m).
  assert (EM : forall i, own (M i) = own (ms s i) /\ rc (M i) = rc (ms s i) /\ entry (M i) = entry (ms s i) /\ mask (M i) = mask (ms s i) /\ (In i l /\ sig (M i) = t :: sig (ms s i) \/ ~ In i l /\ sig (M i) = sig (ms s i))).
  { intro i; unfold M. destruct (exbP i l); sf; auto 10. }
  clearbody M.
  constructor; unfold slept; sf.
  - intros u i. destruct (EM i) as (-> & _). eqc u t N; ru; sf; [|apply (iA s I)]. intro H. destruct (iA s I t i H) as [A|A]; auto. exact (False_ind _ (calm_away _ _ C A)).
  - intros u i. destruct (EM i) as (-> & -> & _). intro H. eqc u t N; ru; sf; [|now apply (iB s I)]. destruct (iB s I t i H) as [A|A]; auto. exact (False_ind _ (calm_wtp _ _ C A)).
  - intros u i. eqc u t N; ru; sf; [|apply (iC s I)]. intros [_ H]; sf. specialize (HD i H). destruct (run_own s t i I P HD) as (_ & R & _); auto.
  - intros i w k. destruct (EM i) as (-> & _ & _ & -> & E). intro H. destruct (iE s I i w k H). split; auto. destruct E as [[_ ->]|[_ ->]]; [now right|auto].
  - intros i w H. destruct (EM i) as (_ & _ & _ & _ & E). eqc w t N; ru; sf.
    + destruct E as [[E1 E2]|[E1 E2]]; rewrite E2 in H; [|destruct (NS _ H)]. split; auto.
    + apply (iF s I). destruct E as [[E1 E2]|[E1 E2]]; rewrite E2 in H; auto. destruct H; congruence.
  - intros i. destruct (EM i) as (_ & _ & _ & _ & [[_ ->]|[_ ->]]); [constructor; auto|]; apply (iFn s I).
  - intros d w H. eqc w t N; [destruct (NQ _ H)|]. ru. now apply (iG s I).
  - apply (iGn s I).
  - apply (iG1 s I).
  - intros d i w H. destruct (EM i) as (_ & _ & _ & _ & [[_ ->]|[_ ->]]); [|now apply (iG2 s I) with d]. intros [E|E]; [subst; exact (NQ _ H)|exact (iG2 s I d i w H E)].
  - intros i u. destruct (EM i) as (_ & _ & -> & _). rewrite (iH s I i u). eqc u t N; ru; sf; [|reflexivity]. rewrite P; split; intros [q H]; discriminate.
  - intros i. destruct (EM i) as (_ & _ & -> & _). apply (iHn s I).
  - intros i u q. destruct (EM i) as (-> & _). eqc u t N; ru; sf; [discriminate|apply (iO s I)].
  - intros i. destruct (EM i) as (-> & _ & _ & _ & E). intro H. destruct E as [[E1 E2]|[E1 ->]]; [|now apply (iI s I)]. destruct (run_own s t i I P (HD i E1)); congruence.
  - intros w. eqc w t N; ru; sf.
    + intros _; right. intros m Hm. right. destruct (EM m) as (_ & _ & _ & _ & [[_ ->]|[E _]]); [now left|contradiction].
    + intro H. destruct (iJ s I w H) as [A|A]; auto. right. intros m Hm. destruct (A m Hm); auto. right. destruct (EM m) as (_ & _ & _ & _ & [[_ ->]|[_ ->]]); auto. now right.
  - intros w. eqc w t N; ru; sf; [intros _|apply (iJn s I)]. destruct l as [|a l]; [congruence|]. exists a; split; [now left|auto].
  - intros u. eqc u t N; ru; sf; [|apply (iK s I)]. pose proof (iK s I t) as K. rewrite P in K. exact K.
Qed.
Lemma slept_gave s t l : Inv s -> pcs (ts s t) = Run -> (forall m, In m l -> dep (ts s t) m > 0) -> forall m, In m l -> gave (push (sleep s t l) t l) t m /\ In t (sig (ms (push (sleep s t l) t l) m)).
Proof.
  intros I P HD m Hm. destruct (run_own s t m I P (HD m Hm)) as (A & _ & B). unfold gave, push, sleep, setT, away; sf. ru; sf.
  destruct (exbP m l); [|contradiction]. sf. split; [split; [auto|split; [auto|left; auto]]|now left].
Qed.
Lemma inv_mask s t l k : Inv s -> (forall m, In m l -> gave s t m /\ In t (sig (ms s m))) -> Inv (set_mask s l (t, k)).
Proof.
  intros I G. unfold set_mask.
  set (M := fun m => if existsb (Nat.eqb m) l then Mon (own (ms s m)) (rc (ms s m)) (entry (ms s m)) (sig (ms s m)) (Some (t, k)) else ms s m).
  assert (EM : forall i, own (M i) = own (ms s i) /\ rc (M i) = rc (ms s i) /\ entry (M i) = entry (ms s i) /\ sig (M i) = sig (ms s i) /\ (In i l /\ mask (M i) = Some (t, k) \/ ~ In i l /\ mask (M i) = mask (ms s i))).
  { intro i; unfold M. destruct (exbP i l); sf; auto 10. }
  clearbody M.
  constructor; sf.
  - intros u i. destruct (EM i) as (-> & _). apply (iA s I).
  - intros u i. destruct (EM i) as (-> & -> & _). apply (iB s I).
  - apply (iC s I).
  - intros i w j. destruct (EM i) as (-> & _ & _ & -> & E). intro H. destruct E as [[E1 E2]|[_ E]]; [|rewrite E in H; now apply (iE s I) with j]. rewrite E2 in H. destruct (G i E1) as [(A & _) B]. assert (w = t) by congruence. subst. auto.
  - intros i w. destruct (EM i) as (_ & _ & _ & -> & _). apply (iF s I).
  - intros i. destruct (EM i) as (_ & _ & _ & -> & _). apply (iFn s I).
  - apply (iG s I).
  - apply (iGn s I).
  - apply (iG1 s I).
  - intros d i w. destruct (EM i) as (_ & _ & _ & -> & _). apply (iG2 s I).
  - intros i u. destruct (EM i) as (_ & _ & -> & _). apply (iH s I).
  - intros i. destruct (EM i) as (_ & _ & -> & _). apply (iHn s I).
  - intros i u q. destruct (EM i) as (-> & _). apply (iO s I).
  - intros i. destruct (EM i) as (-> & _ & _ & -> & _). apply (iI s I).
  - intros w H. destruct (iJ s I w H) as [A|A]; auto. right; intros m Hm. destruct (EM m) as (_ & _ & _ & -> & _). auto.
  - apply (iJn s I).
  - apply (iK s I).
Qed.
Lemma inv_signal s c w q l : Inv s -> cq s c = w :: q -> cm s c = Some l -> (forall m, In m l -> own (ms s m) <> None) -> Inv (push (S_ (ms s) (ts s) (upd (cq s) c q) (cm s)) w l).
Proof.
  intros I Eq El HO. unfold push; sf.
  assert (Hw : In w (cq s c)) by (rewrite Eq; now left).
  destruct (iG s I c w Hw) as (G1 & G2 & G3). assert (nod (ts s w) = l) by congruence.
  pose proof (iGn s I c) as ND. rewrite Eq in ND. inversion ND as [|? ? ND1 ND2]; subst.
  set (M := fun m => if existsb (Nat.eqb m) (nod (ts s w)) then Mon (own (ms s m)) (rc (ms s m)) (entry (ms s m)) (w :: sig (ms s m)) (mask (ms s m)) else ms s m).
  assert (EM : forall i, own (M i) = own (ms s i) /\ rc (M i) = rc (ms s i) /\ entry (M i) = entry (ms s i) /\ mask (M i) = mask (ms s i) /\ (In i (nod (ts s w)) /\ sig (M i) = w :: sig (ms s i) \/ ~ In i (nod (ts s w)) /\ sig (M i) = sig (ms s i))).
  { intro i; unfold M. destruct (exbP i (nod (ts s w))); sf; auto 10. }
  clearbody M.
  assert (QS : forall d v, In v (upd (cq s) c q d) -> In v (cq s d) /\ v <> w).
  { intros d v H. eqc d c N; ru; [split; [rewrite Eq; now right|intro; now subst]|]. split; auto. intro; subst v. apply N. now apply (iG1 s I) with w. }
  constructor; sf.
  - intros u i. destruct (EM i) as (-> & _). apply (iA s I).
  - intros u i. destruct (EM i) as (-> & -> & _). apply (iB s I).
  - apply (iC s I).
  - intros i v k. destruct (EM i) as (-> & _ & _ & -> & E). intro H. destruct (iE s I i v k H). split; auto. destruct E as [[_ ->]|[_ ->]]; [now right|auto].
  - intros i v. destruct (EM i) as (_ & _ & _ & _ & [[E ->]|[_ ->]]); [|apply (iF s I)]. intros [H|H]; [|now apply (iF s I)]. subst v. split; auto. split; auto. rewrite G2; auto.
  - intros i. destruct (EM i) as (_ & _ & _ & _ & [[E ->]|[_ ->]]); [constructor; [now apply (iG2 s I) with c|]|]; apply (iFn s I).
  - intros d v H. apply QS in H as [H _]. now apply (iG s I).
  - intros d. eqc d c N; ru; auto. apply (iGn s I).
  - intros d e v H1 H2. apply QS in H1 as [H1 _]. apply QS in H2 as [H2 _]. now apply (iG1 s I) with v.
  - intros d i v H. apply QS in H as [H N]. destruct (EM i) as (_ & _ & _ & _ & [[E ->]|[_ ->]]); [|now apply (iG2 s I) with d]. intros [Z|Z]; [congruence|exact (iG2 s I d i v H Z)].
  - intros i u. destruct (EM i) as (_ & _ & -> & _). apply (iH s I).
  - intros i. destruct (EM i) as (_ & _ & -> & _). apply (iHn s I).
  - intros i u r. destruct (EM i) as (-> & _). apply (iO s I).
  - intros i. destruct (EM i) as (-> & _ & _ & _ & [[E E2]|[_ ->]]); [|apply (iI s I)]. intro H. now apply HO in E.
  - intros v H. eqc v w N.
    + right. intros m Hm. right. destruct (EM m) as (_ & _ & _ & _ & [[E ->]|[E _]]); [now left|contradiction].
    + destruct (iJ s I v H) as [[d A]|A].
      * left. exists d. eqc d c M'; ru; auto. rewrite Eq in A. destruct A; congruence.
      * right. intros m Hm. destruct (A m Hm); auto. right. destruct (EM m) as (_ & _ & _ & _ & [[E ->]|[_ ->]]); auto. now right.
  - apply (iJn s I).
  - apply (iK s I).
Qed.
Lemma inv_sigblock s t c w q l : Inv s -> cq s c = w :: q -> cm s c = Some l -> (forall m, In m l -> gave s t m) ->
  Inv (pcT (S_ (ms (set_owner s l w)) (ts s) (upd (cq s) c q) (cm s)) w Res).
Proof.
  intros I Eq El HG. unfold set_owner, pcT, setT; sf.
  assert (Hw : In w (cq s c)) by (rewrite Eq; now left).
  destruct (iG s I c w Hw) as (G1 & G2 & G3). assert (nod (ts s w) = l) by congruence.
  pose proof (iGn s I c) as ND. rewrite Eq in ND. inversion ND as [|? ? ND1 ND2]; subst.
  set (R := fun m => match nod (ts s w) with a :: _ => if m =? a then 1 else 0 | [] => 0 end).
  change (fun m => if existsb (Nat.eqb m) (nod (ts s w)) then Mon (Some w) match nod (ts s w) with a :: _ => if m =? a then 1 else 0 | [] => 0 end (entry (ms s m)) (sig (ms s m)) (mask (ms s m)) else ms s m)
    with (fun m => if existsb (Nat.eqb m) (nod (ts s w)) then Mon (Some w) (R m) (entry (ms s m)) (sig (ms s m)) (mask (ms s m)) else ms s m).
  set (M := fun m => if existsb (Nat.eqb m) (nod (ts s w)) then _ else _).
  assert (EM : forall i, entry (M i) = entry (ms s i) /\ sig (M i) = sig (ms s i) /\ mask (M i) = mask (ms s i) /\ (In i (nod (ts s w)) /\ own (M i) = Some w \/ ~ In i (nod (ts s w)) /\ own (M i) = own (ms s i) /\ rc (M i) = rc (ms s i))).
  { intro i; unfold M. destruct (exbP i (nod (ts s w))); sf; auto 10. }
  clearbody M R.
  assert (QS : forall d v, In v (upd (cq s) c q d) -> In v (cq s d) /\ v <> w).
  { intros d v H. eqc d c N; ru; [split; [rewrite Eq; now right|intro; now subst]|]. split; auto. intro; subst v. apply N. now apply (iG1 s I) with w. }
  constructor; sf.
  - intros u i. destruct (EM i) as (_ & _ & _ & E). eqc u w N; ru; sf; intro H; destruct (iA s I _ i H) as [A|A].
    + destruct A as (_ & A & _). destruct E as [[_ ->]|[E _]]; [auto|contradiction].
    + right. destruct E as [[_ ->]|[_ [-> _]]]; auto.
    + auto.
    + destruct E as [[E _]|[_ [-> _]]]; auto. destruct (HG i E) as (B1 & _ & B2). assert (u = t) by congruence. subst u. destruct B2; [auto|lia].
  - intros u i. destruct (EM i) as (_ & _ & _ & [[E1 E2]|[E1 [-> ->]]]).
    + rewrite E2. intros [= <-]. ru; sf. right. split; auto.
    + intro H. eqc u w N; ru; sf; [|now apply (iB s I)]. destruct (iB s I w i H) as [A|[_ A]]; auto. contradiction.
  - intros u i. eqc u w N; ru; sf; [|apply (iC s I)]. intros [_ H]; sf. apply (iC s I). split; auto.
  - intros i v k. destruct (EM i) as (_ & -> & -> & E). intro H. destruct (iE s I i v k H) as [A B]. split; auto. destruct E as [[E1 _]|[_ [-> _]]]; auto. destruct (HG i E1) as (_ & Z & _). congruence.
  - intros i v. destruct (EM i) as (_ & -> & _). intro H. eqc v w N; [exfalso; exact (iG2 s I c i w Hw H)|]. ru. now apply (iF s I).
  - intros i. destruct (EM i) as (_ & -> & _). apply (iFn s I).
  - intros d v H. apply QS in H as [H N]. ru. now apply (iG s I).
  - intros d. eqc d c N; ru; auto. apply (iGn s I).
  - intros d e v H1 H2. apply QS in H1 as [H1 _]. apply QS in H2 as [H2 _]. now apply (iG1 s I) with v.
  - intros d i v H. apply QS in H as [H N]. destruct (EM i) as (_ & -> & _). now apply (iG2 s I) with d.
  - intros i u. destruct (EM i) as (-> & _). rewrite (iH s I i u). eqc u w N; ru; sf; [|reflexivity]. rewrite G1; split; intros [r H]; discriminate.
  - intros i. destruct (EM i) as (-> & _). apply (iHn s I).
  - intros i u r. eqc u w N; ru; sf; [discriminate|]. intro H. destruct (EM i) as (_ & _ & _ & [[E ->]|[_ [-> _]]]); [split; congruence|now apply (iO s I) with r].
  - intros i. destruct (EM i) as (_ & -> & _ & [[E ->]|[_ [-> _]]]); [discriminate|apply (iI s I)].
  - intros v. eqc v w N; ru; sf; [discriminate|]. intro H. destruct (iJ s I v H) as [[d A]|A].
    + left. exists d. eqc d c M'; ru; auto. rewrite Eq in A. destruct A; congruence.
    + right. intros m Hm. destruct (EM m) as (_ & -> & _). auto.
  - intros v. eqc v w N; ru; sf; [discriminate|apply (iJn s I)].
  - intros u. eqc u w N; ru; sf; [|apply (iK s I)]. pose proof (iK s I w) as K. rewrite G1 in K. exact K.
Qed.
Lemma inv_restore s t : Inv s -> pcs (ts s t) = Res -> Inv (restore s t).
Proof.
  intros I P. unfold restore, pcT, setT; sf.
  set (M := fun m => if existsb (Nat.eqb m) (nod (ts s t)) then _ else _).
  assert (EM : forall i, own (M i) = own (ms s i) /\ entry (M i) = entry (ms s i) /\ sig (M i) = sig (ms s i) /\ (In i (nod (ts s t)) /\ mask (M i) = None /\ rc (M i) = sav (ts s t) i \/ ~ In i (nod (ts s t)) /\ mask (M i) = mask (ms s i) /\ rc (M i) = rc (ms s i))).
  { intro i; unfold M. destruct (exbP i (nod (ts s t))); sf; auto 10. }
  clearbody M.
  assert (NA : forall i, ~ away (ts s t) i) by (intros i [A _]; congruence).
  assert (HC : forall i, In i (nod (ts s t)) -> sav (ts s t) i = dep (ts s t) i /\ own (ms s i) = Some t).
  { intros i Hi. destruct (iC s I t i) as [A B]; [split; auto|]. split; auto. destruct (iA s I t i B) as [Z|Z]; auto. destruct (NA _ Z). }
  constructor; sf.
  - intros u i. destruct (EM i) as (-> & _). eqc u t N; ru; sf; [|apply (iA s I)]. intro H. destruct (iA s I t i H) as [A|A]; auto. destruct (NA _ A).
  - intros u i. destruct (EM i) as (-> & _ & _ & E). intro H. eqc u t N; ru; sf.
    + left. destruct E as [(E1 & _ & E2)|(E1 & _ & E2)]; rewrite E2; [now apply HC|]. destruct (iB s I t i H) as [A|[_ A]]; auto. contradiction.
    + destruct E as [(E1 & _ & E2)|(E1 & _ & E2)]; rewrite E2; [|now apply (iB s I)]. apply HC in E1 as [_ E1]. congruence.
  - intros u i. eqc u t N; ru; sf; [|apply (iC s I)]. intros [[H|H] _]; discriminate.
  - intros i w k. destruct (EM i) as (-> & _ & -> & E). destruct E as [(_ & -> & _)|(_ & -> & _)]; [discriminate|apply (iE s I)].
  - intros i w. destruct (EM i) as (_ & _ & -> & _). intro H. pose proof (iF s I i w H) as A. eqc w t N; ru; auto. destruct (NA _ A).
  - intros i. destruct (EM i) as (_ & _ & -> & _). apply (iFn s I).
  - intros d w H. destruct (iG s I d w H) as (A & B). eqc w t N; ru; [congruence|auto].
  - apply (iGn s I).
  - apply (iG1 s I).
  - intros d i w. destruct (EM i) as (_ & _ & -> & _). apply (iG2 s I).
  - intros i u. destruct (EM i) as (_ & -> & _). rewrite (iH s I i u). eqc u t N; ru; sf; [|reflexivity]. rewrite P; split; intros [r H]; discriminate.
  - intros i. destruct (EM i) as (_ & -> & _). apply (iHn s I).
  - intros i u r. destruct (EM i) as (-> & _). eqc u t N; ru; sf; [discriminate|apply (iO s I)].
  - intros i. destruct (EM i) as (-> & _ & -> & _). apply (iI s I).
  - intros w. eqc w t N; ru; sf; [discriminate|]. intro H. destruct (iJ s I w H) as [A|A]; auto. right. intros m Hm. destruct (EM m) as (_ & _ & -> & _). auto.
  - intros w. eqc w t N; ru; sf; [discriminate|apply (iJn s I)].
  - intros u. eqc u t N; ru; sf; [|apply (iK s I)]. pose proof (iK s I t) as K. rewrite P in K. exact K.
Qed.
Lemma del_in t u l : In u (del t l) <-> In u l /\ u <> t.
Proof. unfold del. rewrite filter_In, negb_true_iff, Nat.eqb_neq. reflexivity. Qed.
Lemma inv_baton s t u m0 l' : Inv s -> let l := m0 :: l' in (forall m, In m l -> gave s t m) -> In u (entry (ms s m0)) ->
  let s1 := set_owner s l u in let y := ms s1 m0 in
  Inv (admit (setM s1 m0 (Mon (own y) (rc y) (del u (entry y)) (sig y) (mask y))) u m0).
Proof.
  intros I l HG Hu. destruct (proj1 (iH s I m0 u) Hu) as [q Pu].
  intros s1 y. assert (Ey : y = Mon (Some u) 1 (entry (ms s m0)) (sig (ms s m0)) (mask (ms s m0))).
  { subst y s1 l. unfold set_owner; sf. cbn [existsb]. now rewrite Nat.eqb_refl. }
  rewrite Ey; sf. unfold admit, setM; sf. change (ts s1) with (ts s); change (cq s1) with (cq s); change (cm s1) with (cm s). rewrite Pu. unfold deep, setT; sf.
  set (M := upd _ m0 _).
  assert (EM : forall i, (entry (M i) = if i =? m0 then del u (entry (ms s i)) else entry (ms s i)) /\ sig (M i) = sig (ms s i) /\ mask (M i) = mask (ms s i) /\ (In i l /\ own (M i) = Some u /\ (rc (M i) = if i =? m0 then 1 else 0) \/ ~ In i l /\ own (M i) = own (ms s i) /\ rc (M i) = rc (ms s i))).
  { intro i; unfold M. eqc i m0 N; ru; rewrite ?Nat.eqb_refl; sf.
    - split; auto. split; auto. split; auto. left. split; [now left|auto].
    - apply Nat.eqb_neq in N as N'. subst s1; unfold set_owner; sf. rewrite ?N'. destruct (exbP i l); sf; [|auto 10]. unfold l in *. rewrite ?N'. auto 10. }
  clearbody M. subst l; set (l := m0 :: l') in *.
  assert (NA : forall i, ~ away (ts s u) i) by (intros i [H _]; congruence).
  assert (NW : forall i, ~ wtp (ts s u) i) by (intros i [[H|H] _]; congruence).
  assert (Z : forall m, In m l -> dep (ts s u) m = 0).
  { intros m Hm. destruct (dep (ts s u) m) eqn:E; auto. exfalso. destruct (iA s I u m) as [A|A]; [lia|exact (NA _ A)|].
    destruct (HG m Hm) as (B & _ & D). assert (u = t) by congruence. subst t. destruct D as [D|D]; [exact (NA _ D)|lia]. }
  assert (Hm0 : In m0 l) by now left.
  constructor; sf.
  - intros v i. destruct (EM i) as (_ & _ & _ & E). eqc v u Nv; ru; sf.
    + intro H. right. destruct E as [(_ & -> & _)|(Ni & -> & _)]; auto. assert (i <> m0) by congruence. rewrite ?upd_other in H by auto. destruct (iA s I u i H) as [A|A]; auto. destruct (NA _ A).
    + intro H. destruct (iA s I v i H) as [A|A]; auto. destruct E as [(E & _)|(_ & -> & _)]; auto. destruct (HG i E) as (B & _ & D). assert (v = t) by congruence; subst v. destruct D; [auto|lia].
  - intros v i. destruct (EM i) as (_ & _ & _ & [(E & -> & ->)|(E & -> & ->)]).
    + intros [= <-]. ru; sf. left. eqc i m0 N; ru; [now rewrite Z|]. rewrite ?upd_other by auto. now rewrite Z.
    + intro H. eqc v u Nv; ru; sf; [|now apply (iB s I)]. assert (i <> m0) by congruence. rewrite ?upd_other by auto. destruct (iB s I u i H) as [A|A]; auto. destruct (NW _ A).
  - intros v i H. eqc v u Nv; ru; sf; [destruct H as [[H|H] _]; discriminate|now apply (iC s I)].
  - intros i w k. destruct (EM i) as (_ & -> & -> & E). intro H. destruct (iE s I i w k H) as [A B]. split; auto. destruct E as [(E & _)|(_ & -> & _)]; auto. destruct (HG i E) as (_ & D & _). congruence.
  - intros i w. destruct (EM i) as (_ & -> & _). intro H. pose proof (iF s I i w H) as A. eqc w u N; ru; auto. destruct (NA _ A).
  - intros i. destruct (EM i) as (_ & -> & _). apply (iFn s I).
  - intros c w H. pose proof (iG s I c w H) as (A & _). eqc w u N; ru; [congruence|now apply (iG s I)].
  - apply (iGn s I).
  - apply (iG1 s I).
  - intros c i w. destruct (EM i) as (_ & -> & _). apply (iG2 s I).
  - intros i v. destruct (EM i) as (-> & _). pose proof (iH s I i v) as Q. eqc i m0 N.
    + rewrite del_in, Q. eqc v u Nv; ru; sf; [split; [tauto|intros [p H]; discriminate]|tauto].
    + rewrite Q. eqc v u Nv; ru; sf; [|reflexivity]. split; intros [p H]; congruence.
  - intros i. destruct (EM i) as (-> & _). eqc i m0 N; [apply NoDup_filter|]; apply (iHn s I).
  - intros i v p. eqc v u Nv; ru; sf; [discriminate|]. intro H. pose proof (iO s I i v p H) as [A B]. destruct (EM i) as (_ & _ & _ & [(_ & -> & _)|(_ & -> & _)]); auto. split; congruence.
  - intros i. destruct (EM i) as (_ & -> & _ & [(_ & -> & _)|(_ & -> & _)]); [discriminate|apply (iI s I)].
  - intros w. eqc w u N; ru; sf; [discriminate|]. intro H. destruct (iJ s I w H) as [A|A]; auto. right; intros i P. destruct (EM i) as (_ & -> & _). auto.
  - intros w. eqc w u N; ru; sf; [discriminate|apply (iJn s I)].
  - intros v. eqc v u Nv; ru; sf; [|apply (iK s I)]. apply kinv_blk. rewrite <- Pu. apply (iK s I).
Qed.
Lemma nodupbP l : nodupb l = true -> NoDup l.
Proof. induction l as [|a r IH]; cbn [nodupb]; [constructor|]. rewrite andb_true_iff, negb_true_iff. intros [A B]. constructor; auto. intro H. apply exb in H. congruence. Qed.
(** handing over each of l in turn *)
Lemma inv_nexts l : forall s t c, Inv s -> NoDup l -> In t (cq s c) -> (forall m, In m l -> gave s t m) -> Inv (fold_left next l s).
Proof.
  induction l as [|m l IH]; intros s t c I ND Q G; cbn [fold_left]; auto.
  inversion ND as [|? ? N1 N2]; subst.
  assert (T : ts (next s m) t = ts s t).
  { apply next_ts; [now apply (iG2 s I) with c|]. rewrite (iH s I). intros [r H]. destruct (iG s I c t Q) as [A _]. congruence. }
  apply IH with t c; auto.
  - apply inv_next with t; auto. apply G; now left.
  - now rewrite (proj1 (next_cq s m)).
  - intros i Hi. assert (i <> m) by (intro; subst; contradiction). unfold gave. rewrite next_ms, T by auto. apply G; now right.
Qed.
Lemma search_in s k q : forall i u j, search s k q i = Some (u, j) -> In u q.
Proof.
  induction k as [|g k IH]; intros i u j; cbn [search]; [discriminate|]. destruct (List.find (top_is s g) q) as [v|] eqn:E; [|apply IH].
  intros [= <- _]. now apply find_some in E.
Qed.
Lemma kinv_call f g k d : kinv Run f d -> kinv (Ent g) ((k, g) :: f) d.
Proof. intros K m. specialize (K m). cbn [kinv] in K. split; [|now exists k, [], f]. rewrite K. unfold cntf, cnt. cbn [map concat snd]. rewrite count_occ_app. lia. Qed.
Lemma cnt_rev m l : cnt m (rev l) = cnt m l.
Proof. unfold cnt. apply count_occ_rev. Qed.
Lemma kinv_ret f g k d : kinv Run ((k, g) :: f) d -> kinv (Lea (rev g)) f d.
Proof. intros K m. specialize (K m). cbn [kinv] in K. rewrite K, cnt_rev. unfold cntf, cnt. cbn [map concat snd]. rewrite count_occ_app. lia. Qed.
Theorem inv_step s t a s' : Inv s -> step s t a = Some s' -> Inv s'.
Proof.
  intros I. unfold step. destruct (pcs (ts s t)) as [|r|b r|r| |] eqn:P.
  - assert (C : calm (pcs (ts s t))) by (rewrite P; exact Logic.I).
    pose proof (iK s I t) as K; rewrite P in K.
    destruct a as [f g| | |c|c|c|k bl]; try discriminate.
    + destruct (sortedb g); [|discriminate]. intros [= <-]. apply inv_T; sf; auto. now apply kinv_call.
    + destruct (fr (ts s t)) as [|[f g] q] eqn:F; [discriminate|]. intros [= <-]. apply inv_T; sf; auto. now apply kinv_ret with f.
    + destruct (brand s t c) as [l|] eqn:B; [|discriminate].
      destruct (holds s t l && nodupb l && negb match l with [] => true | _ => false end) eqn:H; [|discriminate]. intros [= <-].
      apply andb_true_iff in H as [H H3]. apply andb_true_iff in H as [H1 H2]. rewrite holdsP in H1. apply nodupbP in H2.
      unfold sleep, setT; sf. fold (slept s t l).
      apply inv_nexts with t c; auto.
      * apply inv_wait; auto; [destruct l; [discriminate|congruence]|]. unfold brand in B. destruct (cm s c); auto.
      * sf. ru. apply in_app_iff; right; now left.
      * intros m Hm. destruct (run_own s t m I P (H1 m Hm)) as (A1 & A2 & A3). unfold gave, slept, away; sf; ru; sf. auto 10.
    + destruct (cq s c) as [|w q] eqn:Q; [intros [= <-]; auto|]. destruct (cm s c) as [l|] eqn:L; [|intros [= <-]; auto].
      destruct (holds s t l) eqn:H; [|discriminate]. rewrite holdsP in H. intros [= <-]. apply inv_signal; auto.
      intros m Hm. destruct (run_own s t m I P (H m Hm)) as (A & _). congruence.
    + destruct (cq s c) as [|w q] eqn:Q; [intros [= <-]; auto|]. destruct (cm s c) as [l|] eqn:L; [|intros [= <-]; auto].
      destruct (holds s t l) eqn:H; [|discriminate]. rewrite holdsP in H. intros [= <-].
      assert (Hw : In w (cq s c)) by (rewrite Q; now left). destruct (iG s I c w Hw) as (W1 & W2 & W3).
      assert (NE : l <> []). { intro E. destruct (iJn s I w W1) as (m & Z & _). assert (nod (ts s w) = l) by congruence. rewrite E in *. rewrite H0 in Z. contradiction. }
      pose proof (inv_sleeppush s t l I P H NE) as I1.
      apply (inv_sigblock (push (sleep s t l) t l) t c w q l); auto.
      intros m Hm. apply slept_gave; auto.
    + destruct (holds s t (aggregate k) && forallb (fun g => sortedb (snd g)) k) eqn:H; [|discriminate]. apply andb_true_iff in H as [H _]. rewrite holdsP in H.
      destruct (aggregate k) as [|m0 l'] eqn:L; [intros [= <-]; auto|]. set (l := m0 :: l') in *.
      assert (NE : l <> []) by (unfold l; discriminate).
      pose proof (inv_sleeppush s t l I P H NE) as I1.
      destruct (search s k (entry (ms s m0)) 0) as [[u i]|] eqn:SE.
      * intros [= <-]. match goal with |- Inv (setT ?z _ _) => change (Inv (setacc z t (Some i))) end. apply inv_acc.
        apply (inv_baton (push (sleep s t l) t l) t u m0 l'); auto.
        -- intros m Hm. apply slept_gave; auto.
        -- apply search_in in SE. unfold push, sleep, setT; sf. destruct (existsb _ _); auto.
      * destruct bl; intros [= <-]; auto. apply inv_mask; auto. intros m Hm. apply slept_gave; auto.
  - destruct r as [|m r]; destruct a; try discriminate.
    + intros [= <-]. unfold pcT. apply inv_T; sf; auto; [rewrite P; auto|]. pose proof (iK s I t) as K; rewrite P in K. intro m. destruct (K m) as [A _]. cbn [cnt count_occ] in A. unfold cnt in A; cbn [count_occ] in A. lia.
    + destruct (fr (ts s t)) as [|g q]; [discriminate|]. intros [= <-]. now apply enter_inv.
  - destruct a; discriminate.
  - destruct r as [|m r]; destruct a; try discriminate.
    + intros [= <-]. unfold pcT. apply inv_T; sf; auto; [rewrite P; auto|]. pose proof (iK s I t) as K; rewrite P in K. intro m. specialize (K m). unfold cnt in K; cbn [count_occ] in K. lia.
    + intros [= <-]. now apply leave_inv.
  - destruct a; discriminate.
  - destruct a; try discriminate. intros [= <-]. now apply inv_restore.
Qed.
Theorem inv_reach s : reach s -> Inv s.
Proof. induction 1; [apply init_inv|eapply inv_step; eauto]. Qed.
