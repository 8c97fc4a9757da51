From Coq Require Import ZArith List Bool Sorted Permutation Lia ZifyBool.
From Verif.Alarm Require Import Model Spec.
Import ListNotations.
Open Scope Z_scope.

Lemma before_trans a b c : before a b -> before b c -> before a c.
Proof. unfold before. lia. Qed.
Lemma insert_perm n l : Permutation (insert n l) (n :: l).
Proof.
  induction l as [|m l IH]; auto. cbn [insert]. destruct (_ <=? _); auto. rewrite IH. apply perm_swap.
Qed.
Lemma insert_ordered n l : ordered l -> Forall (fun m => (seq m < seq n)%nat) l -> ordered (insert n l).
Proof.
  unfold ordered. induction l as [|m l IH]; intros H F; [repeat constructor|]. cbn [insert]. inversion H as [|? ? H1 H2]; subst. inversion F as [|? ? F1 F2]; subst.
  destruct (Z.leb_spec (deadline m) (deadline n)) as [E|E].
  - constructor; auto. apply Forall_forall. intros x Hx. apply (Permutation_in _ (insert_perm n l)) in Hx. destruct Hx as [<-|Hx].
    + unfold before. lia.
    + rewrite Forall_forall in H2. auto.
  - constructor; auto. constructor; [unfold before; lia|]. apply Forall_forall. intros x Hx. rewrite Forall_forall in H2. apply before_trans with m; auto. unfold before; lia.
Qed.
Lemma filter_ordered f l : ordered l -> ordered (filter f l).
Proof.
  unfold ordered. induction l as [|m l IH]; intros H; auto. cbn [filter]. inversion H as [|? ? H1 H2]; subst. destruct (f m); auto.
  constructor; auto. apply Forall_forall. intros x Hx. apply filter_In in Hx as [Hx _]. rewrite Forall_forall in H2. auto.
Qed.
Lemma filter_none {A} (f : A -> bool) l : Forall (fun x => f x = false) l -> filter f l = [].
Proof. induction 1; auto. cbn. rewrite H. auto. Qed.
Lemma filter_all {A} (f : A -> bool) l : Forall (fun x => f x = true) l -> filter f l = l.
Proof. induction 1; auto. cbn. rewrite H. f_equal. auto. Qed.
Lemma filter_insert_expired t n l : expired t n = false -> filter (expired t) (insert n l) = filter (expired t) l.
Proof. intros H. induction l as [|m l IH]; cbn [insert]; [cbn; rewrite H; auto|]. destruct (_ <=? _); cbn [filter]; rewrite ?IH; auto. rewrite H. auto. Qed.
Definition fresh (stp : nat) (l : list node) := Forall (fun m => (seq m < stp)%nat) l.
Lemma tick_loop_spec fuel : forall l t stp, ordered l -> fresh stp l -> (length (filter (expired t) l) < fuel)%nat ->
  exists l' stp', tick_loop fuel l t stp = Some (filter (expired t) l, l', stp') /\ ordered l' /\ fresh stp' l' /\ (stp <= stp')%nat /\
    Permutation l' (filter (fun n => negb (expired t n)) l ++ rearmed t stp (filter (expired t) l)) /\ Forall (fun n => expired t n = false) l'.
Proof.
  induction fuel as [|f IH]; intros l t stp O F L; [lia|]. cbn [tick_loop]. destruct l as [|n r].
  - exists [], stp. cbn. repeat split; auto.
  - destruct (Z.leb_spec t (deadline n)) as [E|E].
    + assert (Forall (fun x => expired t x = false) (n :: r)) as G.
      { inversion O as [|? ? O1 O2]; subst. constructor; [unfold expired; lia|]. apply Forall_forall. intros x Hx. rewrite Forall_forall in O2. specialize (O2 x Hx).
        unfold before, expired in *. lia. }
      rewrite (filter_none _ _ G). exists (n :: r), stp. repeat split; auto. cbn [rearmed]. rewrite app_nil_r, filter_all; auto.
      eapply Forall_impl; [|exact G]. cbn. intros a ->. auto.
    + assert (expired t n = true) as En by (unfold expired; lia). cbn [filter] in *. rewrite En in *. cbn [length negb] in *.
      inversion O as [|? ? O1 O2]; subst. inversion F as [|? ? F1 F2]; subst.
      destruct (0 <? period n) eqn:Ep.
      * set (m := N (id n) (t + period n) (period n) stp). assert (expired t m = false) as Em by (unfold expired, m; cbn; lia).
        destruct (IH (insert m r) t (S stp)) as (l' & stp' & T1 & T2 & T3 & T4 & T5 & T6).
        { apply insert_ordered; auto. }
        { unfold fresh. rewrite insert_perm. constructor; [cbn; lia|]. eapply Forall_impl; [|exact F2]. cbn. lia. }
        { rewrite filter_insert_expired by auto. lia. }
        rewrite T1. rewrite filter_insert_expired in * by auto. exists l', stp'. repeat split; auto; [lia|].
        rewrite T5. cbn [rearmed]. rewrite Ep. fold m.
        assert (forall f, Permutation (filter f (insert m r)) (filter f (m :: r))) as PF.
        { intros g. clear. induction r as [|x r IH]; auto. cbn [insert]. destruct (_ <=? _); auto. cbn [filter] in *. destruct (g x), (g m); auto; rewrite IH; auto. apply perm_swap. }
        rewrite PF. cbn [filter]. rewrite Em. cbn [negb]. apply Permutation_middle.
      * destruct (IH r t stp) as (l' & stp' & T1 & T2 & T3 & T4 & T5 & T6); auto; [lia|].
        rewrite T1. exists l', stp'. repeat split; auto. cbn [rearmed]. rewrite Ep. auto.
Qed.

(** invariant *)
Definition covered (s : st) : Prop :=
  match alarms s with
  | [] => True
  | n :: _ => signalled s = true \/ exists e, timer s = Some e /\ now s < e /\ e <= Z.max (deadline n) (now s + 1000)
  end.
Definition Inv (s : st) := ordered (alarms s) /\ fresh (stamp s) (alarms s) /\ NoDup (map id (alarms s)) /\ covered s /\
  (forall e, timer s = Some e -> now s < e).
Lemma advance_inv s t : now s <= t -> Inv s -> Inv (advance s t).
Proof.
  intros Ht (I1 & I2 & I3 & I4 & I5). unfold advance. unfold covered in I4. destruct (timer s) as [e|] eqn:E.
  - destruct (Z.leb_spec e t).
    + split; auto. split; auto. split; auto. split; [|discriminate]. unfold covered; cbn. destruct (alarms s); auto.
    + split; auto. split; auto. split; auto. split; cbn; [|intros ? [= <-]; auto]. unfold covered; cbn. destruct (alarms s); auto.
      destruct I4 as [I4|(e' & [= <-] & ? & ?)]; auto. right. exists e. repeat split; auto; lia.
  - split; auto. split; auto. split; auto. split; [|discriminate]. unfold covered; cbn. destruct (alarms s); auto.
    destruct I4 as [I4|(e' & ? & _)]; auto. discriminate.
Qed.
Lemma set_timer_proj s d : alarms (set_timer s d) = alarms s /\ stamp (set_timer s d) = stamp s /\ now (set_timer s d) = now s /\ signalled (set_timer s d) = signalled s.
Proof. unfold set_timer. destruct (_ || _); auto. Qed.
Lemma set_timer_bound s d : (forall e, timer s = Some e -> now s < e) ->
  exists e, timer (set_timer s d) = Some e /\ now s < e /\ e <= now s + Z.max d 1000 /\ (forall e', timer s = Some e' -> e <= e').
Proof.
  intros H. unfold set_timer. destruct (timer s) as [e|] eqn:E.
  - specialize (H e eq_refl). destruct (Z.eqb_spec (e - now s) 0); [lia|]. cbn [orb]. destruct (Z.ltb_spec (Z.max d 1000) (e - now s)); cbn [timer].
    + eexists. split; [reflexivity|]. repeat split; try lia. intros ? [= <-]. lia.
    + rewrite E. exists e. repeat split; auto; try lia. intros ? [= <-]. lia.
  - cbn. eexists. split; [reflexivity|]. repeat split; try lia. discriminate.
Qed.
Lemma listed_false i l : listed i l = false -> ~ In i (map id l).
Proof.
  unfold listed. intros H G. apply in_map_iff in G as (n & <- & Hn). assert (existsb (fun m => Nat.eqb (id m) (id n)) l = true); [|congruence].
  apply existsb_exists. exists n. split; auto. apply Nat.eqb_refl.
Qed.
Lemma register_inv s i dl per s' : Inv s -> register s i dl per = Some s' -> Inv s'.
Proof.
  intros (I1 & I2 & I3 & I4 & I5). unfold register. destruct (listed i (alarms s)) eqn:El; [discriminate|]. set (n := N i dl per (stamp s)).
  set (s1 := St (insert n (alarms s)) (timer s) (signalled s) (now s) (S (stamp s))). intros [= <-].
  destruct (set_timer_proj s1 (dl - now s)) as (P1 & P2 & P3 & P4). destruct (set_timer_bound s1 (dl - now s) I5) as (e & B1 & B2 & B3 & B4).
  change (now s1) with (now s) in *. unfold Inv, covered. change (dl - now s1) with (dl - now s). rewrite P1, P2, P3, P4, B1. cbn [s1 alarms stamp signalled].
  split; [apply insert_ordered; auto|]. split; [unfold fresh; rewrite insert_perm; constructor; [cbn; lia|eapply Forall_impl; [|exact I2]; cbn; lia]|].
  split; [|split].
  - eapply Permutation_NoDup; [symmetry; apply Permutation_map, insert_perm|]. cbn. constructor; auto. apply listed_false; auto.
  - unfold covered in I4. destruct (alarms s) as [|m r]; cbn [insert].
    + right. exists e. repeat split; auto. cbn [deadline n]. lia.
    + destruct (Z.leb_spec (deadline m) (deadline n)) as [E|E].
      * destruct I4 as [I4|(e' & E1 & E2 & E3)]; auto. right. exists e. repeat split; auto. specialize (B4 e' E1). lia.
      * right. exists e. repeat split; auto. cbn [deadline n]. lia.
  - intros e' [= <-]. auto.
Qed.
Lemma NoDup_filter_map {A B} (f : A -> B) g l : NoDup (map f l) -> NoDup (map f (filter g l)).
Proof.
  induction l as [|a l IH]; intros H; auto. cbn in *. inversion H; subst. destruct (g a); auto. cbn. constructor; auto.
  intros G. apply H2. apply in_map_iff in G as (x & E & Hx). apply filter_In in Hx as [Hx _]. apply in_map_iff. eauto.
Qed.
Lemma unregister_inv s i : Inv s -> Inv (unregister s i).
Proof.
  intros (I1 & I2 & I3 & I4 & I5). unfold unregister, Inv. cbn [alarms stamp timer now]. split; [apply filter_ordered; auto|].
  split; [unfold fresh in *; apply Forall_forall; intros x Hx; apply filter_In in Hx as [Hx _]; rewrite Forall_forall in I2; auto|].
  split; [apply NoDup_filter_map; auto|]. split; auto.
  unfold covered in *. cbn [alarms signalled timer now]. destruct (filter _ (alarms s)) as [|m r] eqn:E; auto.
  assert (In m (alarms s)) as Hm by (apply (filter_In (fun n => negb (Nat.eqb (id n) i))); rewrite E; left; auto).
  destruct (alarms s) as [|n q]; [destruct Hm|]. destruct I4 as [I4|(e & E1 & E2 & E3)]; auto. right. exists e. repeat split; auto.
  assert (deadline n <= deadline m); [|lia]. destruct Hm as [->|Hm]; [lia|]. inversion I1 as [|? ? _ O]; subst. rewrite Forall_forall in O. specialize (O m Hm). unfold before in O. lia.
Qed.
Lemma filter_split_perm {A} (f : A -> bool) l : Permutation l (filter f l ++ filter (fun x => negb (f x)) l).
Proof.
  induction l as [|a l IH]; auto. cbn. destruct (f a); cbn [negb]; cbn [app].
  - constructor; auto.
  - rewrite <- Permutation_middle. constructor; auto.
Qed.
Lemma rearmed_ids t fs : forall stp, exists g, map id (rearmed t stp fs) = map id (filter g fs).
Proof.
  intros stp. exists (fun n => 0 <? period n). revert stp. induction fs as [|n fs IH]; intros stp; auto. cbn. destruct (0 <? period n); cbn; rewrite IH; auto.
Qed.
Lemma filter_le {A} (f : A -> bool) l : (length (filter f l) <= length l)%nat.
Proof. induction l; cbn; auto. destruct (f a); cbn; lia. Qed.
Lemma tick_spec s : Inv s -> exists s', tick (S (length (alarms s))) s = Some (s', filter (expired (now s)) (alarms s)) /\ Inv s' /\ now s' = now s /\
  Permutation (alarms s') (filter (fun n => negb (expired (now s) n)) (alarms s) ++ rearmed (now s) (stamp s) (filter (expired (now s)) (alarms s))) /\
  Forall (fun n => expired (now s) n = false) (alarms s').
Proof.
  intros (I1 & I2 & I3 & I4 & I5). unfold tick.
  destruct (tick_loop_spec (S (length (alarms s))) (alarms s) (now s) (stamp s) I1 I2) as (l' & stp' & T1 & T2 & T3 & T4 & T5 & T6).
  { pose proof (filter_le (expired (now s)) (alarms s)). lia. }
  rewrite T1. assert (NoDup (map id l')) as ND.
  { eapply Permutation_NoDup; [symmetry; apply Permutation_map; exact T5|]. rewrite map_app.
    destruct (rearmed_ids (now s) (filter (expired (now s)) (alarms s)) (stamp s)) as [g ->].
    set (fs := filter (expired (now s)) (alarms s)). set (ks := filter (fun n => negb (expired (now s) n)) (alarms s)).
    assert (NoDup (map id ks ++ map id fs)) as N2.
    { rewrite <- map_app. eapply Permutation_NoDup; [apply Permutation_map|exact I3]. rewrite Permutation_app_comm. apply filter_split_perm. }
    revert N2. generalize (map id ks). intros k. induction k as [|a k IH]; cbn [app].
    - apply NoDup_filter_map.
    - intros N2. inversion N2; subst. constructor; auto. intros G. apply H1. apply in_app_or in G as [G|G]; apply in_or_app; auto. right.
      apply in_map_iff in G as (x & E & Hx). apply filter_In in Hx as [Hx _]. apply in_map_iff. eauto. }
  set (s1 := St l' (timer s) false (now s) stp').
  eexists. split; [reflexivity|]. destruct l' as [|m r].
  - split; [|auto]. unfold Inv, covered. cbn. repeat split; auto.
  - destruct (set_timer_proj s1 (deadline m - now s)) as (P1 & P2 & P3 & P4). destruct (set_timer_bound s1 (deadline m - now s) I5) as (e & B1 & B2 & B3 & B4).
    change (now s1) with (now s) in *. unfold Inv, covered. change (deadline m - now s1) with (deadline m - now s). rewrite P1, P2, P3, P4, B1. cbn [s1 alarms stamp signalled].
    split; [|auto]. split; auto. split; auto. split; auto. split.
    + right. exists e. repeat split; auto. lia.
    + intros e' [= <-]. auto.
Qed.
Lemma reach_inv t0 s : reach t0 s -> Inv s.
Proof.
  induction 1 as [|s t o s' fs R IH Ht Ho E].
  - unfold Inv, init, covered. cbn. repeat split; auto; try constructor. discriminate.
  - apply advance_inv with (t := t) in IH; auto. unfold step in E. destruct o.
    + destruct (register _ _ _ _) eqn:Er; [|discriminate]. inversion E; subst. eapply register_inv; eauto.
    + inversion E; subst. apply unregister_inv; auto.
    + destruct (tick_spec _ IH) as (s1 & T1 & T2 & _). rewrite T1 in E. inversion E; subst. auto.
Qed.
