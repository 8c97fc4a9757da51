From Coq Require Import ZArith List Bool Arith Lia ZifyBool.
From Verif.OldLocks Require Import Model Spec.
Import ListNotations.
Definition hp (p : phase) (k : nat) : nat := match p with In d | Wa d | Wb d | Wc d | Wd d => d | Wl => k | Out | Wp => 0 end.
Definition oc (p : phase) (k : nat) : bool := match p with Wa _ | Wb _ => true | Wc _ | Wp => k =? 0 | _ => false end.
Definition ol (p : phase) (k : nat) : bool := match p with Wl => k =? 0 | _ => false end.
Definition cs (p : phase) : bool := match p with Wa _ | Wb _ => true | _ => false end.
Definition cap (l : lockst) (d : nat) : bool := match l with M _ => d =? 0 | R _ _ => (Z.of_nat (S d) <? W)%Z end.
Definition good (l : lockst) (p : phase) (k : nat) : bool :=
  (k <=? 1) && (match p with Wl | Wc _ | Wp => true | _ => k =? 0 end) && (match p with In d | Wa d => 1 <=? d | Wb d | Wc d | Wd d => cap l d | _ => true end).
Definition lkok (l : lockst) (h : option nat) (n : nat -> nat) : Prop :=
  (forall t, 0 < n t <-> h = Some t) /\
  match l with
  | M b => b = (match h with Some _ => true | None => false end) /\ forall t, n t <= 1
  | R o c => o = h /\ c = Z.of_nat (match h with Some x => n x | None => 0 end) /\ (c < W)%Z
  end.
Definition hs (s : sys) (t : nat) : nat := hp (ph s t) (tok s t).
Record Inv (s : sys) : Prop := {
  i_good : forall t, good (lk s) (ph s t) (tok s t) = true;
  i_cl : forall t, cl s = Some t <-> cs (ph s t) = true;
  i_lqn : NoDup (lq s); i_lq : forall t, List.In t (lq s) <-> ol (ph s t) (tok s t) = true;
  i_cqn : NoDup (cq s); i_cq : forall t, List.In t (cq s) <-> oc (ph s t) (tok s t) = true;
  i_h : exists h, lkok (lk s) h (hs s) /\ (h = None -> lq s = []);
  i_arr : arr s = gra s ++ lq s; i_carr : carr s = cgra s ++ cq s }.
Lemma upd_eq {A} (f : nat -> A) t a : upd f t a t = a. Proof. unfold upd. rewrite Nat.eqb_refl. reflexivity. Qed.
Lemma upd_ne {A} (f : nat -> A) t a x : x <> t -> upd f t a x = f x. Proof. intros H. unfold upd. destruct (Nat.eqb_spec x t); congruence. Qed.
Ltac at_ x t := destruct (Nat.eq_dec x t) as [->|]; [rewrite ?upd_eq|rewrite ?upd_ne by assumption].
Lemma Wbig : (W > 2)%Z. Proof. reflexivity. Qed.
(* locking *)
Lemma acq_got t d l l' h n : lkok l h n -> n t = d -> acquire t l = Some l' -> (Z.of_nat (S d) < W)%Z ->
  lkok l' (Some t) (upd n t (S d)) /\ (d = 0 -> h = None).
Proof.
  intros [H0 H1] Hd Ha Hw. destruct l as [b|o c]; cbn [acquire] in Ha.
  - destruct b; [discriminate|]. injection Ha as <-. destruct H1 as [H1 H2]. destruct h; [discriminate|].
    assert (Z0 : forall x, n x = 0). { intros x. specialize (H0 x). destruct (n x); [reflexivity|]. destruct H0 as [H0 _]. discriminate H0. lia. }
    split; [|reflexivity]. rewrite Z0 in Hd. subst d. split.
    + intros x. at_ x t; [split; intros; [reflexivity|lia]|]. rewrite Z0. split; [lia|congruence].
    + split; [reflexivity|]. intros x. at_ x t; [lia|]. rewrite Z0. lia.
  - destruct H1 as [-> [H1 H2]]. destruct h as [o|].
    + destruct (Nat.eqb_spec o t) as [->|]; [|discriminate]. injection Ha as <-. assert (P := proj2 (H0 t) eq_refl). split; [|lia]. split.
      * intros x. at_ x t; [split; intros; [reflexivity|lia]|]. apply H0.
      * rewrite upd_eq. rewrite Z.mod_small by lia. repeat split; try lia.
    + injection Ha as <-. assert (Z0 : n t = 0). { specialize (H0 t). destruct (n t); [reflexivity|]. destruct H0 as [H0 _]. discriminate H0. lia. }
      split; [|reflexivity]. rewrite Z0 in Hd. subst d. split.
      * intros x. at_ x t; [split; intros; [reflexivity|lia]|]. rewrite H0. split; congruence.
      * rewrite upd_eq. pose proof Wbig. repeat split; lia.
Qed.
Lemma acq_none t d l h n : lkok l h n -> n t = d -> acquire t l = None -> (match l with M _ => d = 0 | _ => True end) -> d = 0 /\ h <> None.
Proof.
  intros [H0 H1] Hd Ha Hm. destruct l as [[|]|[o|] c]; try discriminate; cbn [acquire] in Ha.
  - destruct H1 as [H1 _]. split; [assumption|]. intros ->. discriminate.
  - destruct H1 as [<- [H1 _]]. destruct (Nat.eqb_spec o t); [discriminate|]. split; [|discriminate]. specialize (H0 t). destruct (n t); [congruence|]. destruct H0 as [H0 _]. assert (Some o = Some t) by (apply H0; lia). congruence.
Qed.
Lemma lkok_ext l h n m : (forall x, n x = m x) -> lkok l h n -> lkok l h m.
Proof.
  intros E [H0 H1]. split; [intros t; rewrite <- E; apply H0|]. destruct l; [destruct H1 as [H1 H2]; split; [assumption|intros; rewrite <- E; apply H2]|].
  destruct h; [rewrite <- E|]; assumption.
Qed.

Lemma acq_cap t l l' : acquire t l = Some l' -> cap l' = cap l.
Proof. destruct l as [[|]|[o|] c]; cbn [acquire]; try discriminate; [|destruct (o =? t); [|discriminate]|]; intros H; injection H as <-; reflexivity. Qed.
Lemma good_cap l l' p k : cap l' = cap l -> good l' p k = good l p k.
Proof. intros H. unfold good. rewrite H. reflexivity. Qed.
Lemma nodup_snoc (l : list nat) x : NoDup l -> ~ List.In x l -> NoDup (l ++ [x]).
Proof. intros H N. apply NoDup_rev in H. rewrite <- (rev_involutive (l ++ [x])). apply NoDup_rev. rewrite rev_app_distr. constructor; [rewrite <- in_rev; exact N|exact H]. Qed.
Lemma in_snoc (l : list nat) x y : List.In y (l ++ [x]) <-> List.In y l \/ y = x.
Proof. rewrite in_app_iff. cbn [List.In]. intuition. Qed.
Lemma do_lock_inv s t d : Inv s -> (ph s t = Out /\ d = 0 \/ ph s t = In d /\ again (lk s) d = true \/ ph s t = Wd d \/ ph s t = In d /\ acquire t (lk s) <> None /\ (match lk s with M _ => True | _ => False end)) ->
  exists s', do_lock t d s = Next s' /\ Inv s'.
Proof.
  intros I Hp. destruct (i_h s I) as [h [Hl He]].
  assert (Hn : hs s t = d) by (unfold hs; destruct Hp as [[-> ->]|[[-> _]|[-> |[-> _]]]]; reflexivity).
  pose proof (i_good s I t) as G.
  assert (Hk : tok s t = 0). { unfold good in G. destruct Hp as [[E _]|[[E _]|[E|[E _]]]]; rewrite E in G; lia. }
  assert (Ncs : cs (ph s t) = false /\ ol (ph s t) (tok s t) = false /\ oc (ph s t) (tok s t) = false) by (destruct Hp as [[-> _]|[[-> _]|[-> |[-> _]]]]; repeat split).
  destruct Ncs as [Ncs [Nol Noc]].
  assert (Hw : (Z.of_nat (S d) < W)%Z).
  { pose proof Wbig. destruct Hl as [H0 H1]. destruct (lk s) as [b|o c] eqn:El.
    - destruct H1 as [_ H1]. specialize (H1 t). rewrite Hn in H1. lia.
    - destruct Hp as [[_ ->]|[[_ Hp]|[Hp|[_ [_ []]]]]]; [lia|cbn [again] in Hp; lia|]. rewrite Hp in G. unfold good, cap in G. lia. }
  unfold do_lock. destruct (acquire t (lk s)) as [l|] eqn:Ea; (eexists; split; [reflexivity|]).
  - destruct (acq_got _ _ _ _ _ _ Hl Hn Ea Hw) as [H1 H2]. pose proof (acq_cap _ _ _ Ea) as C. constructor; cbn [lk lq cq cl ph tok arr gra carr cgra].
    + intros x. rewrite (good_cap _ _ _ _ C). at_ x t; [unfold good; rewrite Hk; reflexivity|apply (i_good s I)].
    + intros x. rewrite (i_cl s I). at_ x t; [rewrite Ncs; reflexivity|reflexivity].
    + apply (i_lqn s I).
    + intros x. rewrite (i_lq s I). at_ x t; [rewrite Nol; reflexivity|reflexivity].
    + apply (i_cqn s I).
    + intros x. rewrite (i_cq s I). at_ x t; [rewrite Noc; reflexivity|reflexivity].
    + exists (Some t). split; [|discriminate]. eapply lkok_ext; [|exact H1]. intros x. unfold hs. cbn [ph tok]. at_ x t; reflexivity.
    + rewrite (i_arr s I). destruct d; cbn [Nat.eqb].
      * rewrite He by (apply H2; reflexivity). rewrite !app_nil_r. reflexivity.
      * rewrite !app_nil_r. reflexivity.
    + apply (i_carr s I).
  - assert (Hd : d = 0 /\ h <> None).
    { apply (acq_none _ _ _ _ _ Hl Hn Ea). destruct (lk s) as [b|] eqn:El; [|exact Logic.I]. destruct Hp as [[_ ->]|[[_ Hp]|[Hp|[_ [Hp _]]]]]; [reflexivity|discriminate|rewrite Hp in G; unfold good, cap in G; lia|congruence]. }
    destruct Hd as [-> Hh]. constructor; cbn [lk lq cq cl ph tok arr gra carr cgra].
    + intros x. at_ x t; [unfold good; rewrite Hk; reflexivity|apply (i_good s I)].
    + intros x. rewrite (i_cl s I). at_ x t; [rewrite Ncs; reflexivity|reflexivity].
    + apply nodup_snoc; [apply (i_lqn s I)|]. rewrite (i_lq s I), Nol. discriminate.
    + intros x. rewrite in_snoc, (i_lq s I). at_ x t; [rewrite Hk; cbn [ol]; split; auto|split; [intros [H|H]; [exact H|congruence]|auto]].
    + apply (i_cqn s I).
    + intros x. rewrite (i_cq s I). at_ x t; [rewrite Noc; reflexivity|reflexivity].
    + exists h. split; [|congruence]. eapply lkok_ext; [|exact Hl]. intros x. unfold hs. cbn [ph tok]. at_ x t; [|reflexivity]. unfold hs in Hn. rewrite Hn. cbn [hp]. lia.
    + rewrite (i_arr s I). cbn [Nat.eqb]. rewrite app_assoc. reflexivity.
    + apply (i_carr s I).
Qed.
(* unlocking *)
Lemma do_unlock_inv s t d p : Inv s -> (ph s t = In d /\ p = held (pred d) \/ ph s t = Wa d /\ p = Wb (pred d)) ->
  exists s', do_unlock t p s = Next s' /\ Inv s'.
Proof.
  intros I Hp. destruct (i_h s I) as [h [Hl He]]. pose proof (i_good s I t) as G.
  assert (Hn : hs s t = d) by (unfold hs; destruct Hp as [[-> _]|[-> _]]; reflexivity).
  assert (Hk : tok s t = 0) by (unfold good in G; destruct Hp as [[E _]|[E _]]; rewrite E in G; lia).
  assert (Hd : 1 <= d) by (unfold good in G; destruct Hp as [[E _]|[E _]]; rewrite E in G; lia).
  assert (Nol : ol (ph s t) (tok s t) = false) by (destruct Hp as [[-> _]|[-> _]]; reflexivity).
  assert (Pcs : cs p = cs (ph s t)) by (destruct Hp as [[-> ->]|[-> ->]]; [destruct (pred d)|]; reflexivity).
  assert (Poc : forall k k', oc p k = oc (ph s t) k') by (intros; destruct Hp as [[-> ->]|[-> ->]]; [destruct (pred d)|]; reflexivity).
  assert (Pol : forall k, ol p k = false) by (intros; destruct Hp as [[_ ->]|[_ ->]]; [destruct (pred d)|]; reflexivity).
  assert (Php : forall k, hp p k = pred d) by (intros; destruct Hp as [[_ ->]|[_ ->]]; [destruct (pred d)|]; reflexivity).
  assert (Hh : h = Some t) by (apply (proj1 Hl); lia). subst h.
  assert (Pg : cap (lk s) (pred d) = true -> good (lk s) p 0 = true) by (intros C; unfold good; destruct Hp as [[_ ->]|[_ ->]]; [destruct (pred d); reflexivity|rewrite C; reflexivity]).
  assert (C : cap (lk s) (pred d) = true).
  { destruct Hl as [_ Hl]. unfold cap. destruct (lk s) as [b|o c]; [destruct Hl as [_ Hl]; specialize (Hl t); lia|]. destruct Hl as [_ [Hc Hw]]. lia. }
  specialize (Pg C).
  assert (Others : forall x, x <> t -> hs s x = 0). { intros x N. destruct (hs s x) eqn:E; [reflexivity|]. exfalso. apply N. assert (Some t = Some x) by (apply (proj1 Hl); lia). congruence. }
  assert (Hr : (d = 1 /\ exists l, release (lk s) (lq s) = (l, tl (lq s), hd_error (lq s)) /\ cap l = cap (lk s) /\
      match l with M b => b = (match hd_error (lq s) with Some _ => true | None => false end) | R o c => o = hd_error (lq s) /\ c = (match hd_error (lq s) with Some _ => 1 | None => 0 end)%Z end) \/
    (1 < d /\ exists o c, lk s = R o c /\ release (lk s) (lq s) = (R o (c - 1)%Z, lq s, None))).
  { destruct Hl as [_ Hl]. destruct (lk s) as [b|o c].
    - destruct Hl as [_ Hl]. specialize (Hl t). assert (d = 1) by lia. left. split; [assumption|]. eexists. split; [reflexivity|]. split; [reflexivity|]. destruct (lq s); reflexivity.
    - destruct Hl as [-> [Hc Hw]]. rewrite Hn in Hc. cbn [release]. rewrite Z.mod_small by lia. destruct (Z.eqb_spec (c - 1) 0).
      + left. split; [lia|]. eexists. split; [reflexivity|]. split; [reflexivity|]. split; [reflexivity|]. destruct (hd_error (lq s)); reflexivity.
      + right. split; [lia|]. eexists. eexists. split; reflexivity. }
  unfold do_unlock. destruct Hr as [[-> [l [-> [Cl Hl']]]]|[Hd1 [o [c [El ->]]]]].
  - destruct (lq s) as [|w q] eqn:Eq; cbn [hd_error tl unpark list_of] in *.
    + eexists. split; [reflexivity|]. constructor; cbn [lk lq cq cl ph tok arr gra carr cgra].
      * intros x. rewrite (good_cap _ _ _ _ Cl). at_ x t; [rewrite Hk; exact Pg|apply (i_good s I)].
      * intros x. rewrite (i_cl s I). at_ x t; [rewrite Pcs; reflexivity|reflexivity].
      * constructor.
      * intros x. rewrite <- Eq, (i_lq s I). at_ x t; [rewrite Nol, Pol; reflexivity|reflexivity].
      * apply (i_cqn s I).
      * intros x. rewrite (i_cq s I). at_ x t; [rewrite (Poc (tok s t) (tok s t)); reflexivity|reflexivity].
      * exists None. split; [|reflexivity]. assert (Z0 : forall x, hp (upd (ph s) t p x) (tok s x) = 0). { intros x. at_ x t; [rewrite Php; reflexivity|apply Others; assumption]. }
        eapply lkok_ext; [intros x; symmetry; apply Z0|]. split; [intros x; split; [lia|discriminate]|]. destruct l; [split; [assumption|lia]|]. destruct Hl' as [-> ->]. repeat split.
      * rewrite (i_arr s I), Eq, !app_nil_r. reflexivity.
      * apply (i_carr s I).
    + assert (Hw : ol (ph s w) (tok s w) = true) by (apply (i_lq s I); rewrite Eq; left; reflexivity).
      assert (Hwp : ph s w = Wl /\ tok s w = 0) by (destruct (ph s w); try discriminate; cbn [ol] in Hw; split; [reflexivity|lia]). destruct Hwp as [Hwp Hwk].
      assert (Nw : w <> t) by (intros ->; congruence).
      pose proof (i_lqn s I) as Nd. rewrite Eq in Nd. inversion Nd as [|? ? Nd1 Nd2]. subst.
      rewrite Hwk. cbn [Nat.eqb]. eexists. split; [reflexivity|]. constructor; cbn [lk lq cq cl ph tok arr gra carr cgra].
      * intros x. rewrite (good_cap _ _ _ _ Cl). at_ x t; [rewrite upd_ne by congruence; rewrite Hk; exact Pg|]. at_ x w; [rewrite Hwp; reflexivity|apply (i_good s I)].
      * intros x. rewrite (i_cl s I). at_ x t; [rewrite Pcs; reflexivity|reflexivity].
      * exact Nd2.
      * intros x. assert (E : List.In x q <-> List.In x (lq s) /\ x <> w). { rewrite Eq. cbn [List.In]. split; [intros H; split; [auto|intros ->; contradiction]|intros [[H|H] N]; [congruence|exact H]]. }
        rewrite E, (i_lq s I). at_ x t; [rewrite Nol, Pol; split; [intros [H _]; discriminate|discriminate]|].
        at_ x w; [rewrite Hwp; cbn [ol Nat.eqb]; split; [intros [_ H]; congruence|discriminate]|split; [intros [H _]; exact H|auto]].
      * apply (i_cqn s I).
      * intros x. rewrite (i_cq s I). at_ x t; [rewrite (Poc (upd (tok s) w 1 t) (tok s t)); reflexivity|]. at_ x w; [rewrite Hwp; reflexivity|reflexivity].
      * exists (Some w). split; [|discriminate].
        assert (Z0 : forall x, hp (upd (ph s) t p x) (upd (tok s) w 1 x) = if x =? w then 1 else 0).
        { intros x. at_ x t; [rewrite Php; destruct (Nat.eqb_spec t w); [congruence|reflexivity]|]. destruct (Nat.eqb_spec x w) as [->|N]; [rewrite upd_eq, Hwp; reflexivity|]. rewrite upd_ne by assumption. apply Others. assumption. }
        eapply lkok_ext; [intros x; symmetry; apply Z0|]. split.
        { intros x. destruct (Nat.eqb_spec x w) as [->|N]; [split; [reflexivity|lia]|split; [lia|congruence]]. }
        destruct l; [split; [assumption|intros x; destruct (x =? w); lia]|]. destruct Hl' as [-> ->]. rewrite Nat.eqb_refl. pose proof Wbig. repeat split; lia.
      * rewrite (i_arr s I), Eq, <- app_assoc. reflexivity.
      * apply (i_carr s I).
  - cbn [unpark list_of]. eexists. split; [reflexivity|]. destruct Hl as [Hl0 Hl]. rewrite El in Hl. destruct Hl as [-> [Hc Hw]]. rewrite Hn in Hc.
    constructor; cbn [lk lq cq cl ph tok arr gra carr cgra].
    + intros x. rewrite (good_cap (lk s)) by (rewrite El; reflexivity). at_ x t; [rewrite Hk; exact Pg|apply (i_good s I)].
    + intros x. rewrite (i_cl s I). at_ x t; [rewrite Pcs; reflexivity|reflexivity].
    + apply (i_lqn s I).
    + intros x. rewrite (i_lq s I). at_ x t; [rewrite Nol, Pol; reflexivity|reflexivity].
    + apply (i_cqn s I).
    + intros x. rewrite (i_cq s I). at_ x t; [rewrite (Poc (tok s t) (tok s t)); reflexivity|reflexivity].
    + exists (Some t). split; [|discriminate]. split.
      * intros x. unfold hs. cbn [ph tok]. at_ x t; [rewrite Php; split; [reflexivity|lia]|apply Hl0].
      * unfold hs. cbn [ph tok]. rewrite upd_eq, Php. repeat split; lia.
    + rewrite (i_arr s I), app_nil_r. reflexivity.
    + apply (i_carr s I).
Qed.
(* parking *)
Lemma park_inv s t s' : Inv s -> do_park t s = Next s' -> Inv s'.
Proof.
  intros I H. unfold do_park in H. destruct (Nat.eqb_spec (tok s t) 0) as [|Nk]; [discriminate|].
  pose proof (i_good s I t) as G. assert (Hk : tok s t = 1) by (unfold good in G; lia). rewrite Hk in H. cbn [Nat.sub] in H.
  assert (exists p, s' = Sys (lk s) (lq s) (cq s) (cl s) (upd (ph s) t p) (upd (tok s) t 0) (arr s) (gra s) (carr s) (cgra s) /\
    good (lk s) p 0 = true /\ cs p = cs (ph s t) /\ oc p 0 = oc (ph s t) 1 /\ ol p 0 = ol (ph s t) 1 /\ hp p 0 = hp (ph s t) 1) as [p [-> [E1 [E2 [E3 [E4 E5]]]]]].
  { destruct (ph s t) eqn:Ep; try discriminate; injection H as <-; eexists; (split; [reflexivity|]); repeat split. unfold good in *. rewrite Hk in G. cbn [Nat.leb andb] in *. exact G. }
  constructor; cbn [lk lq cq cl ph tok arr gra carr cgra].
  - intros x. at_ x t; [exact E1|apply (i_good s I)].
  - intros x. rewrite (i_cl s I). at_ x t; [rewrite E2; reflexivity|reflexivity].
  - apply (i_lqn s I).
  - intros x. rewrite (i_lq s I). at_ x t; [rewrite E4, Hk; reflexivity|reflexivity].
  - apply (i_cqn s I).
  - intros x. rewrite (i_cq s I). at_ x t; [rewrite E3, Hk; reflexivity|reflexivity].
  - destruct (i_h s I) as [h [Hl He]]. exists h. split; [|exact He]. eapply lkok_ext; [|exact Hl]. intros x. unfold hs. cbn [ph tok]. at_ x t; [rewrite E5, Hk; reflexivity|reflexivity].
  - apply (i_arr s I).
  - apply (i_carr s I).
Qed.
(* the condition *)
Lemma append_inv s t c p s' : Inv s -> (ph s t = Out /\ c = None /\ p = Wp \/ exists d, ph s t = In d /\ c = Some t /\ p = Wa d) -> do_append t c p s = Next s' -> Inv s'.
Proof.
  intros I Hp H. unfold do_append in H. destruct (cl s) eqn:Ec; [discriminate|]. injection H as <-. pose proof (i_good s I t) as G.
  assert (Hk : tok s t = 0) by (unfold good in G; destruct Hp as [[E _]|[d [E _]]]; rewrite E in G; lia).
  assert (E : good (lk s) p 0 = true /\ oc p 0 = true /\ oc (ph s t) 0 = false /\ ol p 0 = ol (ph s t) 0 /\ hp p 0 = hp (ph s t) 0 /\ cs (ph s t) = false).
  { destruct Hp as [[E [_ ->]]|[d [E [_ ->]]]]; rewrite E, Hk in *; repeat split. exact G. }
  destruct E as [E1 [E2 [E3 [E4 [E5 E6]]]]].
  constructor; cbn [lk lq cq cl ph tok arr gra carr cgra].
  - intros x. at_ x t; [rewrite Hk; exact E1|apply (i_good s I)].
  - intros x. pose proof (i_cl s I x) as L. rewrite Ec in L. destruct Hp as [[E [-> ->]]|[d [E [-> ->]]]].
    + at_ x t; [split; discriminate|exact L].
    + at_ x t; [split; reflexivity|]. split; [intros H; congruence|intros H; apply L in H; discriminate].
  - apply (i_lqn s I).
  - intros x. rewrite (i_lq s I). at_ x t; [rewrite Hk, E4; reflexivity|reflexivity].
  - apply nodup_snoc; [apply (i_cqn s I)|]. rewrite (i_cq s I), Hk, E3. discriminate.
  - intros x. rewrite in_snoc, (i_cq s I). at_ x t; [rewrite Hk, E2; split; auto|split; [intros [H|H]; [exact H|congruence]|auto]].
  - destruct (i_h s I) as [h [Hl He]]. exists h. split; [|exact He]. eapply lkok_ext; [|exact Hl]. intros x. unfold hs. cbn [ph tok]. at_ x t; [rewrite Hk, E5; reflexivity|reflexivity].
  - apply (i_arr s I).
  - rewrite (i_carr s I), app_assoc. reflexivity.
Qed.
Lemma wrelease_inv s t d : Inv s -> ph s t = Wb d -> Inv (Sys (lk s) (lq s) (cq s) None (upd (ph s) t (Wc d)) (tok s) (arr s) (gra s) (carr s) (cgra s)).
Proof.
  intros I E. pose proof (i_good s I t) as G. assert (Hk : tok s t = 0) by (unfold good in G; rewrite E in G; lia).
  constructor; cbn [lk lq cq cl ph tok arr gra carr cgra].
  - intros x. at_ x t; [rewrite Hk, E in *; exact G|apply (i_good s I)].
  - intros x. assert (Ct : cl s = Some t) by (apply (i_cl s I); rewrite E; reflexivity). at_ x t; [split; discriminate|].
    rewrite <- (i_cl s I). split; [discriminate|congruence].
  - apply (i_lqn s I).
  - intros x. rewrite (i_lq s I). at_ x t; [rewrite E; reflexivity|reflexivity].
  - apply (i_cqn s I).
  - intros x. rewrite (i_cq s I). at_ x t; [rewrite Hk, E; reflexivity|reflexivity].
  - destruct (i_h s I) as [h [Hl He]]. exists h. split; [|exact He]. eapply lkok_ext; [|exact Hl]. intros x. unfold hs. cbn [ph tok]. at_ x t; [rewrite E; reflexivity|reflexivity].
  - apply (i_arr s I).
  - apply (i_carr s I).
Qed.
(** waking the first threads of the condition's queue *)
Lemma wake_inv s w r k : Inv s -> cl s = None -> cq s = w ++ r -> (forall x, List.In x w -> k x = 1) -> (forall x, ~ List.In x w -> k x = tok s x) ->
  Inv (Sys (lk s) (lq s) r (cl s) (ph s) k (arr s) (gra s) (carr s) (cgra s ++ w)).
Proof.
  intros I Hc Hq K1 K2.
  assert (Hw : forall x, List.In x w -> tok s x = 0 /\ (exists d, ph s x = Wc d) \/ tok s x = 0 /\ ph s x = Wp).
  { intros x Hx. assert (Ho : oc (ph s x) (tok s x) = true) by (apply (i_cq s I); rewrite Hq; apply in_or_app; left; exact Hx).
    assert (Hs : cs (ph s x) = false) by (destruct (cs (ph s x)) eqn:E; [apply (i_cl s I) in E; congruence|reflexivity]).
    destruct (ph s x); try discriminate; cbn [oc] in Ho; [left; split; [lia|eexists; reflexivity]|right; split; [lia|reflexivity]]. }
  pose proof (i_cqn s I) as Nd. rewrite Hq in Nd.
  assert (Hx : forall x, List.In x w \/ ~ List.In x w) by (intros x; destruct (in_dec Nat.eq_dec x w); auto).
  constructor; cbn [lk lq cq cl ph tok arr gra carr cgra].
  - intros x. pose proof (i_good s I x) as G. destruct (Hx x) as [H|H]; [|rewrite K2 by exact H; exact G]. rewrite K1 by exact H. destruct (Hw x H) as [[T [d E]]|[T E]]; rewrite E, T in *; [unfold good in *; cbn [Nat.leb andb] in *; exact G|reflexivity].
  - apply (i_cl s I).
  - apply (i_lqn s I).
  - intros x. rewrite (i_lq s I). destruct (Hx x) as [H|H]; [|rewrite K2 by exact H; reflexivity]. destruct (Hw x H) as [[T [d E]]|[T E]]; rewrite E; reflexivity.
  - clear - Nd. induction w as [|a w IH]; [exact Nd|]. apply IH. inversion Nd. assumption.
  - intros x. destruct (Hx x) as [H|H].
    + rewrite K1 by exact H. assert (~ List.In x r). { clear - Nd H. induction w as [|a w IH]; [destruct H|]. inversion Nd as [|? ? N1 N2]. subst. destruct H as [->|H]; [intros R; apply N1; apply in_or_app; right; exact R|apply IH; assumption]. }
      destruct (Hw x H) as [[T [d E]]|[T E]]; rewrite E; cbn [oc Nat.eqb]; split; intros; try contradiction; discriminate.
    + rewrite K2 by exact H. rewrite <- (i_cq s I), Hq, in_app_iff. split; [auto|intros [A|A]; [contradiction|exact A]].
  - destruct (i_h s I) as [h [Hl He]]. exists h. split; [|exact He]. eapply lkok_ext; [|exact Hl]. intros x. unfold hs. cbn [ph tok]. destruct (Hx x) as [H|H]; [|rewrite K2 by exact H; reflexivity]. destruct (Hw x H) as [[T [d E]]|[T E]]; rewrite E; reflexivity.
  - apply (i_arr s I).
  - rewrite (i_carr s I), Hq, app_assoc. reflexivity.
Qed.
Lemma unpark_all_ok : forall l k, NoDup l -> (forall x, List.In x l -> k x = 0) -> exists k', unpark_all l k = Some k' /\ (forall x, List.In x l -> k' x = 1) /\ (forall x, ~ List.In x l -> k' x = k x).
Proof.
  induction l as [|a l IH]; intros k Nd Z0; [exists k; split; [reflexivity|split; [intros x []|reflexivity]]|]. inversion Nd as [|? ? N1 N2]. subst.
  cbn [unpark_all unpark]. rewrite (Z0 a) by (left; reflexivity). cbn [Nat.eqb]. destruct (IH (upd k a 1)) as [k' [E [K1 K2]]]; [exact N2| |].
  - intros x Hx. rewrite upd_ne; [apply Z0; right; exact Hx|intros ->; contradiction].
  - exists k'. split; [exact E|]. split.
    + intros x [->|Hx]; [|apply K1; exact Hx]. rewrite K2 by exact N1. apply upd_eq.
    + intros x Hx. rewrite K2 by (intros H; apply Hx; right; exact H). apply upd_ne. intros ->. apply Hx. left. reflexivity.
Qed.
Lemma cq_zero s x : Inv s -> List.In x (cq s) -> tok s x = 0.
Proof. intros I H. apply (i_cq s I) in H. pose proof (i_good s I x) as G. unfold good in G. destruct (ph s x); try discriminate; cbn [oc] in H; lia. Qed.
Lemma one_inv s : Inv s -> cl s = None -> exists s', do_one s = Next s' /\ Inv s'.
Proof.
  intros I Hc. unfold do_one. rewrite Hc. destruct (cq s) as [|w r] eqn:Eq; cbn [hd_error tl unpark list_of].
  - eexists. split; [reflexivity|]. rewrite <- Hc. apply (wake_inv s [] [] (tok s) I Hc Eq); [intros x []|reflexivity].
  - rewrite (cq_zero s w I) by (rewrite Eq; left; reflexivity). cbn [Nat.eqb]. eexists. split; [reflexivity|]. rewrite <- Hc. apply (wake_inv s [w] r _ I Hc Eq).
    + intros x [<-|[]]. apply upd_eq.
    + intros x N. apply upd_ne. intros ->. apply N. left. reflexivity.
Qed.
Lemma all_inv s : Inv s -> cl s = None -> exists k, do_all s = Next (Sys (lk s) (lq s) [] (cl s) (ph s) k (arr s) (gra s) (carr s) (cgra s ++ cq s)) /\
  (forall x, List.In x (cq s) -> k x = 1) /\ (forall x, ~ List.In x (cq s) -> k x = tok s x).
Proof.
  intros I Hc. destruct (unpark_all_ok (cq s) (tok s) (i_cqn s I)) as [k [E [K1 K2]]]; [intros x; apply cq_zero; exact I|].
  exists k. split; [|split; assumption]. unfold do_all. rewrite Hc, E. reflexivity.
Qed.
Lemma step_inv s e : Inv s -> step e s <> Abort /\ forall s', step e s = Next s' -> Inv s'.
Proof.
  intros I.
  assert (A : forall o, (o = Off \/ exists s', o = Next s' /\ Inv s') -> o <> Abort /\ forall s', o = Next s' -> Inv s').
  { intros o [->|[s' [-> H]]]; split; try discriminate. intros s0 E. injection E as <-. exact H. }
  destruct e as [t|t|t|t|t|t|t|t|t| |]; cbn [step].
  - apply A. destruct (ph s t) eqn:E; auto; [right; apply do_lock_inv; auto|]. destruct (again (lk s) d) eqn:G; [right; apply do_lock_inv; auto|auto].
  - apply A. destruct (ph s t) eqn:E; auto.
    + unfold do_try. right. destruct (acquire t (lk s)); [apply do_lock_inv; auto|exists s; auto].
    + destruct (lk s) eqn:El.
      * unfold do_try. rewrite El. right. destruct (acquire t (M is_locked)) eqn:Ea; [|exists s; auto]. apply do_lock_inv; auto. right. right. right. rewrite El. repeat split; congruence.
      * rewrite <- El. destruct (again (lk s) d) eqn:G; [|auto]. unfold do_try. right. destruct (acquire t (lk s)); [apply do_lock_inv; auto|exists s; auto].
  - apply A. destruct (ph s t) eqn:E; auto. right. eapply do_unlock_inv; eauto.
  - split; [|intros s'; apply park_inv; exact I]. unfold do_park. destruct (tok s t =? 0); [discriminate|]. destruct (ph s t); discriminate.
  - destruct (ph s t) eqn:E; try (apply A; auto; fail). split; [unfold do_append; destruct (cl s); discriminate|]. intros s'. apply append_inv; [exact I|]. right. exists d. auto.
  - apply A. destruct (ph s t) eqn:E; auto. right. eapply do_unlock_inv; eauto.
  - apply A. destruct (ph s t) eqn:E; auto. right. eexists. split; [reflexivity|]. apply wrelease_inv; assumption.
  - apply A. destruct (ph s t) eqn:E; auto. right. apply do_lock_inv; auto.
  - destruct (ph s t) eqn:E; try (apply A; auto; fail). split; [unfold do_append; destruct (cl s); discriminate|]. intros s'. apply append_inv; [exact I|]. auto.
  - apply A. destruct (cl s) eqn:Ec; [left; unfold do_one; rewrite Ec; reflexivity|]. right. apply one_inv; assumption.
  - apply A. destruct (cl s) eqn:Ec; [left; unfold do_all; rewrite Ec; reflexivity|]. right. destruct (all_inv s I Ec) as [k [E [K1 K2]]]. eexists. split; [exact E|]. apply wake_inv; try assumption. rewrite app_nil_r. reflexivity.
Qed.
Lemma init_inv l : new l -> Inv (init l).
Proof.
  intros H. assert (H0 : forall t, hs (init l) t = 0) by reflexivity. constructor; try exact (NoDup_nil nat).
  - reflexivity.
  - intros t. split; discriminate.
  - intros t. split; [intros []|discriminate].
  - intros t. split; [intros []|discriminate].
  - exists None. split; [|reflexivity]. split; [intros t; rewrite H0; split; [lia|discriminate]|].
    destruct H as [->| ->]; [split; [reflexivity|intros t; rewrite H0; lia]|repeat split].
  - reflexivity.
  - reflexivity.
Qed.
Lemma reach_inv l s : new l -> reach l s -> Inv s.
Proof. intros N H. induction H as [|s e s' H IH E]; [apply init_inv; exact N|]. exact (proj2 (step_inv s e IH) s' E). Qed.
