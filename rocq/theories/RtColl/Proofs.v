(** Links and tail pointers represent the lists. *)
From Coq Require Import List Bool Arith Lia.
From Verif.Collections Require Import Spec Rep ProofsQ ProofsSeq.
Require Verif.Collections.Model.
From Verif.RtColl Require Import Spec Model.
Import ListNotations.
Lemma loceqP a b : reflect (a = b) (loceq a b).
Proof. destruct a as [x|x], b as [y|y]; cbn [loceq]; try (constructor; congruence); destruct (Nat.eqb_spec x y); constructor; congruence. Qed.
Lemma lsame {A} (m : loc -> A) a x : upd m a x a = x. Proof. unfold upd. destruct (loceqP a a); congruence. Qed.
Lemma lother {A} (m : loc -> A) a x b : b <> a -> upd m a x b = m b. Proof. intro. unfold upd. destruct (loceqP b a); congruence. Qed.
Lemma nsame {A} (m : nat -> A) a x : updn m a x a = x. Proof. unfold updn. now rewrite Nat.eqb_refl. Qed.
Lemma nother {A} (m : nat -> A) a x b : b <> a -> updn m a x b = m b. Proof. intro. unfold updn. destruct (Nat.eqb_spec b a); congruence. Qed.
Ltac lu := repeat first [rewrite lsame | rewrite lother by congruence | rewrite nsame | rewrite nother by congruence].
Fixpoint endof (a : loc) (xs : list nat) : loc := match xs with [] => a | x :: r => endof (Nx x) r end.
Fixpoint lchain (z : ptr) (m : loc -> ptr) (a : loc) (xs : list nat) : Prop := match xs with [] => m a = z | x :: r => m a = At x /\ lchain z m (Nx x) r end.
Lemma endof_in xs : forall a, endof a xs = a \/ exists x, In x xs /\ endof a xs = Nx x.
Proof. induction xs as [|x r IH]; intro a; cbn [endof]; auto. right. destruct (IH (Nx x)) as [E|(y & I & E)]; [exists x|exists y]; split; auto; [now left|now right]. Qed.
Lemma endof_app u : forall a v, endof a (u ++ v) = endof (endof a u) v.
Proof. induction u as [|x u IH]; intros a v; cbn [endof app]; auto. Qed.
Lemma lchain_end z m xs : forall a, lchain z m a xs -> m (endof a xs) = z.
Proof. induction xs as [|x r IH]; intro a; cbn [endof lchain]; auto. intros [_ H]. auto. Qed.
Lemma lchain_ext z m m' xs : forall a, m' a = m a -> (forall x, In x xs -> m' (Nx x) = m (Nx x)) -> lchain z m a xs -> lchain z m' a xs.
Proof.
  induction xs as [|x r IH]; intros a E F; cbn [lchain]; [congruence|]. intros [A B]. split; [congruence|]. apply IH; auto; [apply F; now left|]. intros y I. apply F. now right.
Qed.
Lemma lchain_mid z m u x v : forall a, lchain z m a (u ++ x :: v) -> m (endof a u) = At x /\ lchain z m (Nx x) v.
Proof. induction u as [|y u IH]; intros a; cbn [app lchain endof]; auto. intros [_ H]. auto. Qed.
Lemma lchain_snoc z m n xs : forall a, lchain z m a xs -> NoDup xs -> ~ In n xs -> a <> Nx n -> (forall x, In x xs -> a <> Nx x) -> lchain z (upd (upd m (endof a xs) (At n)) (Nx n) z) a (xs ++ [n]).
Proof.
  induction xs as [|x r IH]; intros a C N I A F; cbn [app lchain endof] in *.
  - now lu.
  - destruct C as [C1 C2]. apply nd_cons in N as [N1 N2]. split.
    + assert (a <> endof (Nx x) r). { destruct (endof_in r (Nx x)) as [->|(y & Iy & ->)]; apply F; [now left|now right]. } now lu.
    + apply IH; auto; [intro; apply I; now right|intros [= ->]; apply I; now left|]. intros y Iy [= ->]. auto.
Qed.
Lemma lchain_del z m x v u : forall a, lchain z m a (u ++ x :: v) -> NoDup (u ++ x :: v) -> (forall y, In y (u ++ x :: v) -> a <> Nx y) -> lchain z (upd (upd m (endof a u) (m (Nx x))) (Nx x) Nul) a (u ++ v).
Proof.
  induction u as [|y u IH]; intros a C N F; cbn [app lchain endof] in *.
  - destruct C as [C1 C2]. apply nd_cons in N as [N1 N2]. assert (a <> Nx x) by (apply F; now left).
    destruct v as [|y v]; cbn [lchain] in *; [now lu|]. destruct C2 as [C2 C3]. split; [now lu|]. apply lchain_ext with m; auto.
    + assert (y <> x) by (intros ->; apply N1; now left). assert (Nx y <> a) by (intro E; symmetry in E; revert E; apply F; right; now left). now lu.
    + intros w Iw. assert (w <> x) by (intros ->; apply N1; now right). assert (Nx w <> a) by (intro E; symmetry in E; revert E; apply F; right; now right). now lu.
  - destruct C as [C1 C2]. apply nd_cons in N as [N1 N2]. split.
    + assert (a <> endof (Nx y) u). { destruct (endof_in u (Nx y)) as [->|(w & Iw & ->)]; apply F; [now left|right; apply in_app_iff; auto]. }
      assert (a <> Nx x) by (apply F; right; apply in_app_iff; right; now left). now lu.
    + apply IH; auto. intros w Iw [= ->]. auto.
Qed.
Lemma ptreqP a b : reflect (a = b) (ptreq a b).
Proof. destruct a as [| |x], b as [| |y]; cbn [ptreq]; try (constructor; congruence). destruct (Nat.eqb_spec x y); constructor; congruence. Qed.
Record LR (z : ptr) (m : loc -> ptr) (L : lists) : Prop := {
  lN : forall l, NoDup (L l);
  lD : forall l k n, In n (L l) -> In n (L k) -> l = k;
  lC : forall l, lchain z m (Hd l) (L l);
  lU : forall n, unlisted L n -> m (Nx n) = Nul }.
Lemma lrep_one z m m' L l xs' : LR z m L -> NoDup xs' -> lchain z m' (Hd l) xs' ->
  (forall x, In x xs' -> In x (L l) \/ unlisted L x) -> (forall k, k <> l -> m' (Hd k) = m (Hd k)) ->
  (forall x, ~ In x (L l) -> ~ In x xs' -> m' (Nx x) = m (Nx x)) -> (forall x, In x (L l) -> ~ In x xs' -> m' (Nx x) = Nul) -> LR z m' (set L l xs').
Proof.
  intros R N C I HK HS HU. 
  assert (OUT : forall k x, k <> l -> In x (L k) -> ~ In x (L l) /\ ~ In x xs').
  { intros k x Nk Ix. assert (~ In x (L l)) by (intro J; apply Nk; exact (lD _ _ _ R k l x Ix J)). split; auto. intro J. destruct (I x J) as [J1|J1]; auto. exact (J1 k Ix). }
  constructor.
  - intro k. destruct (Nat.eq_dec k l) as [->|Nk]; [now rewrite set_same|rewrite set_other by auto; apply (lN _ _ _ R)].
  - intros j k n. destruct (Nat.eq_dec j l) as [->|Nj], (Nat.eq_dec k l) as [->|Nk]; rewrite ?set_same; rewrite ?set_other by auto; auto.
    + intros A B. destruct (OUT k n Nk B); contradiction.
    + intros A B. destruct (OUT j n Nj A); contradiction.
    + apply (lD _ _ _ R).
  - intro k. destruct (Nat.eq_dec k l) as [->|Nk]; [now rewrite set_same|]. rewrite set_other by auto. apply lchain_ext with m; auto; [|apply (lC _ _ _ R)].
    intros x Ix. destruct (OUT k x Nk Ix). auto.
  - intros n U. pose proof (U l) as Ul. rewrite set_same in Ul. destruct (in_dec Nat.eq_dec n (L l)) as [J|J]; auto. rewrite HS by auto. apply (lU _ _ _ R).
    intros k Ik. destruct (Nat.eq_dec k l) as [->|Nk]; auto. apply (U k). now rewrite set_other.
Qed.
Lemma lrep_ext z m L L' : (forall k, L' k = L k) -> LR z m L -> LR z m L'.
Proof.
  intros E R. constructor; intros.
  - rewrite E. apply (lN _ _ _ R).
  - rewrite E in *. apply (lD _ _ _ R) with n; auto.
  - rewrite E. apply (lC _ _ _ R).
  - apply (lU _ _ _ R). intro k. rewrite <- E. apply H.
Qed.
Lemma del_rep z m L l u x v : LR z m L -> L l = u ++ x :: v -> LR z (upd (upd m (endof (Hd l) u) (m (Nx x))) (Nx x) Nul) (set L l (u ++ v)).
Proof.
  intros R E. pose proof (lN _ _ _ R l) as N. pose proof (lC _ _ _ R l) as C. rewrite E in *. pose proof (nd_mid _ _ _ N) as M.
  assert (EU : endof (Hd l) u = Hd l \/ exists w, In w u /\ endof (Hd l) u = Nx w) by apply endof_in.
  apply lrep_one with m; auto.
  - apply NoDup_remove_1 in N. auto.
  - apply lchain_del; auto. discriminate.
  - intros y I. left. rewrite E. apply in_app_iff in I. apply in_app_iff. cbn [In]. tauto.
  - intros k Nk. rewrite lother by discriminate. rewrite lother; auto. destruct EU as [->|(w & _ & ->)]; congruence.
  - rewrite E. intros y I1 I2. assert (y <> x) by (intros ->; apply I1; apply in_app_iff; right; now left). rewrite lother by congruence. rewrite lother; auto.
    destruct EU as [->|(w & Iw & ->)]; [discriminate|]. intros [= ->]. apply I1. apply in_app_iff. now left.
  - rewrite E. intros y I1 I2. assert (y = x) as ->; [|now lu]. apply in_app_iff in I1. cbn [In] in I1. destruct I1 as [I1|[I1|I1]]; auto; destruct I2; apply in_app_iff; auto.
Qed.
(** queues *)
Record QR (h : heap) (L : lists) : Prop := { qL : LR One (mem h) L; qT : forall l, tl h l = endof (Hd l) (L l) }.
Lemma tail_one h L l : QR h L -> mem h (tl h l) = One.
Proof. intros [R T]. rewrite T. apply lchain_end, (lC _ _ _ R). Qed.
Lemma walk_end z h u x v : forall a, lchain z (mem h) a (u ++ x :: v) -> walk h a (length u) = Some (endof a u).
Proof. induction u as [|y u IH]; intros a; cbn [app lchain length walk endof]; auto. intros [-> H]. auto. Qed.
Lemma tail_del h L l u x v t : QR h L -> L l = u ++ x :: v -> (v = [] -> t l = endof (Hd l) u) -> (v <> [] -> t l = tl h l) -> (forall k, k <> l -> t k = tl h k) ->
  forall k, t k = endof (Hd k) (set L l (u ++ v) k).
Proof.
  intros R E A B C k. destruct (Nat.eq_dec k l) as [->|Nk]; [|rewrite set_other, C by auto; apply (qT _ _ R)]. rewrite set_same. destruct v as [|y v].
  - rewrite app_nil_r. auto.
  - rewrite B by discriminate. rewrite (qT _ _ R), E, !endof_app. reflexivity.
Qed.
Lemma del_q h L l u x v t : QR h L -> L l = u ++ x :: v -> (v = [] -> t l = endof (Hd l) u) -> (v <> [] -> t l = tl h l) -> (forall k, k <> l -> t k = tl h k) ->
  QR (H (upd (upd (mem h) (endof (Hd l) u) (mem h (Nx x))) (Nx x) Nul) t) (set L l (u ++ v)).
Proof. intros R E A B C. constructor; cbn [mem tl]; [apply del_rep; [apply (qL _ _ R)|auto]|apply tail_del with h x; auto]. Qed.
Lemma qsim h L o L' r : QR h L -> qspec L o L' r -> exists h', qexec h o = Some (h', r) /\ QR h' L'.
Proof.
  intros R S. pose proof (qL _ _ R) as RL. destruct S as [l n U|l|l x v E|l E|l u x v E|l]; cbn [qexec].
  - unfold append. rewrite (lU _ _ _ RL n U), (tail_one h L l R). cbn [ptreq check]. eexists. split; [reflexivity|]. constructor; cbn [mem tl].
    + rewrite (qT _ _ R). pose proof (U l) as Ul. assert (EU : endof (Hd l) (L l) = Hd l \/ exists w, In w (L l) /\ endof (Hd l) (L l) = Nx w) by apply endof_in.
      apply lrep_one with (mem h); auto.
      * apply nd_ins; rewrite app_nil_r; auto. apply (lN _ _ _ RL).
      * apply lchain_snoc; auto; try discriminate; [apply (lC _ _ _ RL)|apply (lN _ _ _ RL)].
      * intros y I. apply in_app_iff in I as [I|[<-|[]]]; auto.
      * intros k Nk. rewrite lother by discriminate. rewrite lother; auto. destruct EU as [->|(w & _ & ->)]; congruence.
      * intros y I1 I2. assert (y <> n) by (intros ->; apply I2; apply in_app_iff; right; now left). rewrite lother by congruence. rewrite lother; auto. destruct EU as [->|(w & Iw & ->)]; [discriminate|]. intros [= ->]. auto.
      * intros y I1 I2. destruct I2. apply in_app_iff; auto.
    + intro k. destruct (Nat.eq_dec k l) as [->|Nk]; [rewrite nsame, set_same, endof_app; reflexivity|rewrite nother, set_other by auto; apply (qT _ _ R)].
  - unfold peek. rewrite (tail_one h L l R). cbn [ptreq check]. exists h. split; auto. pose proof (lC _ _ _ RL l) as C. destruct (L l) as [|x r]; cbn [lchain hd_error] in *; [now rewrite C|]. destruct C as [-> _]. reflexivity.
  - unfold pop_head. rewrite (tail_one h L l R). cbn [ptreq check]. pose proof (lC _ _ _ RL l) as C. rewrite E in C. cbn [lchain] in C. destruct C as [C1 C2]. rewrite C1.
    rewrite (lother _ _ _ (Nx x)) by discriminate. set (t := if ptreq (mem h (Nx x)) One then updn (tl h) l (Hd l) else tl h).
    assert (Q : QR (H (upd (upd (mem h) (endof (Hd l) []) (mem h (Nx x))) (Nx x) Nul) t) (set L l ([] ++ v))).
    { apply del_q; auto; unfold t.
      - intros ->. cbn [lchain] in C2. rewrite C2. cbn [ptreq]. now rewrite nsame.
      - destruct v as [|y v]; [congruence|]. cbn [lchain] in C2. destruct C2 as [C2 _]. rewrite C2. reflexivity.
      - intros k Nk. destruct (ptreq (mem h (Nx x)) One); auto. now rewrite nother. }
    cbn [endof app] in Q. pose proof (tail_one _ _ l Q) as T. cbn [mem tl] in T. rewrite T. cbn [ptreq check]. eexists. split; [reflexivity|auto].
  - unfold pop_head. rewrite (tail_one h L l R). cbn [ptreq check]. pose proof (lC _ _ _ RL l) as C. rewrite E in C. cbn [lchain] in C. rewrite C. exists h. auto.
  - pose proof (lC _ _ _ RL l) as C. rewrite E in C. rewrite (walk_end One h u x v (Hd l) C). destruct (lchain_mid _ _ _ _ _ _ C) as [C1 C2]. unfold remove. rewrite C1.
    set (t := if loceq (tl h l) (Nx x) then updn (tl h) l (endof (Hd l) u) else tl h).
    assert (Q : QR (H (upd (upd (mem h) (endof (Hd l) u) (mem h (Nx x))) (Nx x) Nul) t) (set L l (u ++ v))).
    { apply del_q; auto; unfold t; rewrite (qT _ _ R l), E, endof_app; cbn [endof].
      - intros ->. cbn [endof]. destruct (loceqP (Nx x) (Nx x)); [now rewrite nsame|congruence].
      - intro NV. pose proof (lN _ _ _ RL l) as N. rewrite E in N. pose proof (nd_mid _ _ _ N) as M. destruct (loceqP (endof (Nx x) v) (Nx x)) as [EE|_].
        + destruct v as [|y v]; [congruence|]. cbn [endof] in EE. destruct (endof_in v (Nx y)) as [E2|(w & Iw & E2)]; rewrite E2 in EE; injection EE as ->; exfalso; apply M; cbn [In]; auto.
        + rewrite (qT _ _ R l), E, endof_app. reflexivity.
      - intros k Nk. destruct (loceqP (endof (Nx x) v) (Nx x)); auto. now rewrite nother. }
    pose proof (tail_one _ _ l Q) as T. pose proof (lC _ _ _ (qL _ _ Q) l) as C'. pose proof (qT _ _ Q l) as T'. cbn [mem tl] in T, C', T'. rewrite T. rewrite set_same in C', T'.
    replace (Bool.eqb _ _) with true; [cbn [ptreq check]; eexists; split; [reflexivity|auto]|]. rewrite T'. destruct (u ++ v) as [|y w] eqn:W; cbn [lchain endof] in *.
    + rewrite C'. destruct (loceqP (Hd l) (Hd l)); [reflexivity|congruence].
    + destruct C' as [-> _]. destruct (loceqP (Hd l) (endof (Nx y) w)) as [EE|_]; auto. destruct (endof_in w (Nx y)) as [E2|(q & _ & E2)]; rewrite E2 in EE; discriminate.
  - exists h. split; auto. pose proof (lC _ _ _ RL l) as C. destruct (L l) as [|x r]; cbn [lchain] in *; [now rewrite C|]. destruct C as [-> _]. reflexivity.
Qed.
Lemma init_QR : QR init none.
Proof. constructor; [|reflexivity]. constructor; unfold none; intros; try contradiction; try constructor; reflexivity. Qed.
Lemma execs_sim {S O} (ex : S -> O -> option (S * res)) (sp : lists -> O -> lists -> res -> Prop) (R : S -> lists -> Prop) :
  (forall h L o L' r, R h L -> sp L o L' r -> exists h', ex h o = Some (h', r) /\ R h' L') ->
  forall os L L' rs h, runs sp L os L' rs -> R h L -> exists h', execs ex h os = Some (h', rs) /\ R h' L'.
Proof.
  intro Sim. induction os as [|o os IH]; intros L L' rs h X Rh; inversion X as [|L0 o0 L1 r os0 L2 rs0 X1 X2]; subst; cbn [execs].
  - exists h; auto.
  - destruct (Sim h L o L1 r Rh X1) as (h1 & A & B). rewrite A. destruct (IH L1 L' rs0 h1 X2 B) as (h2 & C & D). rewrite C. exists h2; auto.
Qed.
(** stacks *)
Lemma ssim m L o L' r : LR Nul m L -> sspec L o L' r -> exists m', sexec m o = Some (m', r) /\ LR Nul m' L'.
Proof.
  intros R S. destruct S as [l n U|l x v E|l E|l]; cbn [sexec].
  - unfold push. rewrite (lU _ _ _ R n U). cbn [ptreq check]. eexists. split; [reflexivity|]. pose proof (U l) as Ul. apply lrep_one with m; auto.
    + constructor; auto. apply (lN _ _ _ R).
    + cbn [lchain]. split; [now lu|]. pose proof (lC _ _ _ R l) as C. pose proof (lN _ _ _ R l) as N. destruct (L l) as [|x r]; cbn [lchain] in *; [now lu|]. destruct C as [C1 C2]. split; [now lu|].
      assert (forall y, In y (x :: r) -> y <> n) by (intros y I ->; auto). apply lchain_ext with m; auto; [|intros y I]; rewrite lother by discriminate; rewrite lother; auto; intros [= EE]; revert EE; apply H; cbn [In]; auto.
    + intros x [<-|I]; auto.
    + intros k Nk. rewrite lother by congruence. now rewrite lother by discriminate.
    + intros x I1 I2. rewrite lother by discriminate. rewrite lother; auto. intros [= ->]. apply I2. now left.
    + intros x I1 I2. destruct I2. now right.
  - unfold pop. pose proof (lC _ _ _ R l) as C. rewrite E in C. cbn [lchain] in C. destruct C as [C1 C2]. rewrite C1. eexists. split; [reflexivity|]. apply (del_rep Nul m L l [] x v R E).
  - unfold pop. pose proof (lC _ _ _ R l) as C. rewrite E in C. cbn [lchain] in C. rewrite C. exists m. auto.
  - exists m. split; auto. pose proof (lC _ _ _ R l) as C. destruct (L l) as [|x r]; cbn [lchain] in *; [now rewrite C|]. destruct C as [-> _]. reflexivity.
Qed.
Lemma init_LR : LR Nul sinit none.
Proof. constructor; unfold none; intros; try contradiction; try constructor; reflexivity. Qed.
(** doubly linked lists: the same writes as those of Sequence *)
Lemma push_front_eq h l n : push_front h l n = Collections.Model.d_front h l n.
Proof.
  unfold push_front, Collections.Model.d_front, Collections.Model.d_link. destruct (Collections.Model.root h l) as [r|]; auto.
  unfold Collections.Model.setN'. cbn [Collections.Model.bck Collections.Model.setN Collections.Model.setB]. destruct (Collections.Model.upd _ _ _ n); auto.
Qed.
Lemma dremove_eq h l n : Collections.Model.listed h n = true -> dremove h l n = Collections.Model.d_remove h l n.
Proof.
  intro E. unfold dremove, Collections.Model.d_remove. rewrite E. cbn [negb].
  assert (E1 : match Collections.Model.root h l with
    | Some r => if n =? r then (if Collections.Model.onb (Collections.Model.nxt h r) (Some r) then Collections.Model.setR h l None else Collections.Model.setR h l (Collections.Model.nxt h r)) else h
    | None => h end = (if Collections.Model.onb (Some n) (Collections.Model.root h l) then (if Collections.Model.onb (Collections.Model.nxt h n) (Some n) then Collections.Model.setR h l None else Collections.Model.setR h l (Collections.Model.nxt h n)) else h)).
  { destruct (Collections.Model.root h l) as [r|]; auto. cbn [Collections.Model.onb]. destruct (Nat.eqb_spec n r); subst; auto. }
  rewrite E1. set (h1 := if Collections.Model.onb (Some n) _ then _ else h). clearbody h1. unfold Collections.Model.setB', Collections.Model.setN'.
  destruct (Collections.Model.nxt h1 n) as [y|]; auto. destruct (Collections.Model.bck (Collections.Model.setB h1 y (Collections.Model.bck h1 n)) n) as [p|]; auto.
Qed.
Lemma dremove_ok h L l u x v : RD h L -> L l = u ++ x :: v -> exists h', dremove h l x = Some h' /\ RD h' (set L l (u ++ v)).
Proof. intros R E. rewrite dremove_eq; [now apply d_remove_ok|]. destruct (d_get h L l R) as (_ & K & _). rewrite E in K. now apply d_listed_in with u v. Qed.
Lemma dsim h L o L' r : RD h L -> dspec L o L' r -> exists h', dexec h o = Some (h', r) /\ RD h' L'.
Proof.
  intros R S. destruct S as [l n U|l u x v E|s d u x v N E|s u x v E|l]; cbn [dexec].
  - rewrite push_front_eq. destruct (d_front_ok h L l n R U) as (h' & -> & Q). exists h'. auto.
  - destruct (dremove_ok h L l u x v R E) as (h' & -> & Q). exists h'. auto.
  - unfold move_to_front. destruct (dremove_ok h L s u x v R E) as (h1 & -> & Q). rewrite push_front_eq.
    assert (U : unlisted (set L s (u ++ v)) x).
    { intros k. destruct (Nat.eq_dec k s) as [->|Nk]; [rewrite set_same|rewrite set_other by auto].
      - pose proof (rN _ _ _ _ _ R s) as ND. rewrite E in ND. apply nd_mid in ND. rewrite in_app_iff. tauto.
      - intro I. apply Nk. apply (rD _ _ _ _ _ R k s x I). rewrite E. apply in_app_iff. right; now left. }
    destruct (d_front_ok h1 _ d x Q U) as (h2 & -> & Q2). exists h2. split; auto. rewrite set_other in Q2 by auto. exact Q2.
  - unfold move_to_front. destruct (dremove_ok h L s u x v R E) as (h1 & -> & Q). rewrite push_front_eq.
    assert (U : unlisted (set L s (u ++ v)) x).
    { intros k. destruct (Nat.eq_dec k s) as [->|Nk]; [rewrite set_same|rewrite set_other by auto].
      - pose proof (rN _ _ _ _ _ R s) as ND. rewrite E in ND. apply nd_mid in ND. rewrite in_app_iff. tauto.
      - intro I. apply Nk. apply (rD _ _ _ _ _ R k s x I). rewrite E. apply in_app_iff. right; now left. }
    destruct (d_front_ok h1 _ s x Q U) as (h2 & -> & Q2). exists h2. split; auto. rewrite set_same in Q2. eapply rep_ext; [|exact Q2]. intro k. unfold set. destruct (k =? s); auto.
  - exists h. split; auto. destruct (d_get h L l R) as (E & _ & _). rewrite E. destruct (L l); reflexivity.
Qed.
(** what walks along the links find *)
Fixpoint links (m : loc -> ptr) (a : loc) (k : nat) : list nat := match k with 0 => [] | S j => match m a with At x => x :: links m (Nx x) j | _ => [] end end.
Lemma links_ok z m xs : z <> At 0 -> (forall n, z <> At n) -> forall a k, lchain z m a xs -> length xs < k -> links m a k = xs.
Proof.
  intros _ Z. induction xs as [|x r IH]; intros a [|k] C K; cbn [length links lchain] in *; try lia.
  - rewrite C. destruct z; auto. now destruct (Z n).
  - destruct C as [-> C]. f_equal. apply IH; auto. lia.
Qed.
