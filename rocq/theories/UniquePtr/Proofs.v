(* The invariant is that of CounterPtr with all counters 1. *)

From Coq Require Import List Bool Arith ZArith Lia.
From Verif.CounterPtr Require Import Model Spec Proofs.
From Verif.UniquePtr Require Import Model Spec.
Import ListNotations.

Record rel (sc : state) (su : ustate) : Prop := {
  r_ptrs : uptrs su = ptrs sc;
  r_next : unext su = next sc;
  r_keys : map fst (uobjs su) = map fst (objs sc);
  r_find : forall o, ufind o (uobjs su) = option_map snd (olookup o (objs sc))
}.

Definition uniq (l : list (place * option nat)) : Prop := forall o, cnt l o <= 1.

Lemma keys_oset : forall o v l, map fst (oset o v l) = map fst l.
Proof.
  intros o v l. unfold oset. rewrite map_map. apply map_ext. intros e. destruct (Nat.eqb_spec (fst e) o); [cbn; congruence|reflexivity].
Qed.

Lemma keys_orem : forall o l, map fst (orem o l) = filter (fun x => negb (Nat.eqb x o)) (map fst l).
Proof.
  intros o l. unfold orem. induction l as [|e l IH]; [reflexivity|]. cbn [filter map].
  destruct (negb (Nat.eqb (fst e) o)); cbn [map]; now rewrite IH.
Qed.

Lemma keys_uorem : forall o l, map fst (uorem o l) = filter (fun x => negb (Nat.eqb x o)) (map fst l).
Proof.
  intros o l. unfold uorem. induction l as [|e l IH]; [reflexivity|]. cbn [filter map].
  destruct (negb (Nat.eqb (fst e) o)); cbn [map]; now rewrite IH.
Qed.

Lemma ufind_uorem : forall l o x, ufind x (uorem o l) = if Nat.eqb x o then None else ufind x l.
Proof.
  induction l as [|e l IH]; intros o x; unfold uorem, ufind in *; cbn [filter find]; [now destruct (Nat.eqb x o)|].
  destruct (Nat.eqb_spec (fst e) o); cbn [negb].
  - rewrite IH. destruct (Nat.eqb_spec x o); [reflexivity|]. destruct (Nat.eqb_spec (fst e) x); [congruence|reflexivity].
  - cbn [find]. destruct (Nat.eqb_spec (fst e) x); [destruct (Nat.eqb_spec x o); [congruence|reflexivity]|apply IH].
Qed.

Lemma snd_oset : forall l o c k d x, olookup o l = Some (d, k) ->
  option_map snd (olookup x (oset o (c, k) l)) = option_map snd (olookup x l).
Proof.
  intros. rewrite olookup_oset. destruct (Nat.eqb_spec x o) as [->|]; [now rewrite H|reflexivity].
Qed.

Lemma uniq_filter : forall f l, uniq l -> uniq (filter f l).
Proof. intros f l U o. pose proof (cnt_filter f l o). specialize (U o). lia. Qed.

Lemma uniq_fits : forall s, uniq (ptrs s) -> fits s.
Proof. intros s U o. specialize (U o). lia. Qed.

(* Deleting does what decrementing counters of 1 does. *)
Lemma sim : forall fuel h sc su wl sc1, rel sc su -> Inv h sc wl -> uniq (ptrs sc) -> drain fuel sc wl = Ok sc1 ->
  exists su1, udrain fuel su wl = UOk su1 /\ rel sc1 su1.
Proof.
  induction fuel as [|n IH]; intros h sc su wl sc1 R H U E.
  - destruct wl; [|discriminate]. cbn in E. injection E as <-. exists su. auto.
  - destruct wl as [|[p|o] wl]; cbn [drain] in E.
    + injection E as <-. exists su. auto.
    + cbn [udrain]. pose proof R as []. rewrite r_ptrs0. destruct (lookup p (ptrs sc)) as [[o|]|] eqn:EP; [| |discriminate].
      * destruct (olookup o (objs sc)) as [[c k]|] eqn:EO; [|discriminate]. rewrite r_find0, EO. cbn [option_map snd].
        destruct (inv_drop _ _ _ _ _ _ _ H (uniq_fits _ U o) EP EO) as (W & HC & P & H1). cbn zeta in H1.
        rewrite W in E. pose proof (U o) as UO. assert (C1 : (c - 1)%Z = 0%Z) by lia. rewrite C1 in *. cbn [Z.eqb] in *.
        eapply IH; [|exact H1| |exact E].
        -- constructor; cbn [ptrs objs next uptrs uobjs unext]; auto.
           ++ now rewrite keys_oset.
           ++ intros x. rewrite r_find0. symmetry. eapply snd_oset; eauto.
        -- cbn [ptrs]. apply uniq_filter. exact U.
      * eapply IH; [|eapply inv_drop_null; eauto| |exact E].
        -- constructor; cbn [ptrs objs next uptrs uobjs unext]; auto.
        -- cbn [ptrs]. apply uniq_filter. exact U.
    + cbn [udrain]. pose proof R as []. destruct (inv_free _ _ _ _ H) as [LV H1]. rewrite r_find0.
      destruct (olookup o (objs sc)) as [[c k]|] eqn:EO; [|discriminate]. cbn [option_map].
      eapply IH; [|exact H1|exact U|exact E].
      constructor; cbn [ptrs objs next uptrs uobjs unext]; auto.
      * now rewrite keys_uorem, keys_orem, r_keys0.
      * intros x. rewrite ufind_uorem, olookup_orem. destruct (Nat.eqb x o); [reflexivity|apply r_find0].
Qed.

Lemma udrop_ok : forall sc su p, rel sc su -> Inv None sc [] -> uniq (ptrs sc) -> droppable sc p ->
  exists su1 sc1, udrop su p = UOk su1 /\ rel sc1 su1 /\ Inv (Some p) sc1 [] /\ Keeps (Some p) sc sc1 /\
    ~ In p (map fst (ptrs sc1)) /\ uniq (ptrs sc1).
Proof.
  intros sc su p R H U D. destruct (drop_ok sc p H D (uniq_fits _ U)) as (sc1 & E & A & B & C).
  unfold drop, fuel_of in E. pose proof (sim _ _ _ _ _ _ R (inv_begin _ _ H D) U E) as (su1 & E1 & R1).
  exists su1, sc1. unfold udrop. destruct R. rewrite r_ptrs0.
  assert (LN : length (uobjs su) = length (objs sc)) by (rewrite <- (map_length fst (uobjs su)), r_keys0; apply map_length).
  rewrite LN. split; [exact E1|]. split; [exact R1|]. split; [exact A|]. split; [exact B|]. split; [exact C|].
  intros o. destruct (Nat.le_gt_cases (cnt (ptrs sc1) o) 1) as [L|L]; [exact L|]. exfalso.
  (* a sub-list without duplicates *)
  assert (N1 : NoDup (ptrs sc1)) by (apply (NoDup_map_inv fst); apply A).
  assert (X : cnt (ptrs sc1) o <= cnt (ptrs sc) o).
  { unfold cnt. apply NoDup_incl_length; [apply NoDup_filter; exact N1|]. intros e I. apply filter_In in I. apply filter_In. split; [apply (k_sub _ _ _ B); tauto|tauto]. }
  specialize (U o). lia.
Qed.

(* p, a new pointer or the hole, takes the value of q, which becomes null. *)
Lemma transfer : forall h s p q w, Inv h s [] -> uniq (ptrs s) -> ~ In p (map fst (ptrs s)) ->
  match h with Some x => x = p \/ is_field x = false | None => True end -> (is_field p = true -> h = Some p) ->
  In (q, w) (ptrs s) -> q <> p -> (match q with Field o _ => held s o | _ => True end) ->
  exists sc1, Inv None sc1 [] /\ ptrs sc1 = (q, None) :: rem q ((p, w) :: ptrs s) /\ next sc1 = next s /\
    map fst (objs sc1) = map fst (objs s) /\
    (forall x, option_map snd (olookup x (objs sc1)) = option_map snd (olookup x (objs s))) /\ uniq (ptrs sc1).
Proof.
  intros h s p q w H U NI HH HF IQ DQ HQ.
  assert (LV : match w with Some o => olookup o (objs s) <> None | None => True end).
  { destruct w as [o|]; [|exact I]. eapply i_tgt; eauto. }
  destruct (put_ok h s p w H NI HH HF LV) as (ob & E1 & H1 & _).
  { destruct w as [o|]; [|exact I]. specialize (U o). lia. }
  set (s1 := mkS ((p, w) :: ptrs s) ob (next s)) in *.
  assert (OB : map fst ob = map fst (objs s) /\ forall x, option_map snd (olookup x ob) = option_map snd (olookup x (objs s))).
  { destruct w as [o|]; cbn [put] in E1.
    - destruct (olookup o (objs s)) as [[c k]|] eqn:EO; [|discriminate]. unfold s1 in E1. injection E1 as <-.
      split; [apply keys_oset|]. intros x. eapply snd_oset; eauto.
    - unfold s1 in E1. injection E1 as <-. auto. }
  destruct OB as [OB1 OB2].
  assert (D1 : droppable s1 q).
  { split; [right; eapply key_in; eauto|]. destruct q; auto. apply held_put. exact HQ. }
  pose proof (inv_begin _ _ H1 D1) as H2.
  assert (EQ : lookup q (ptrs s1) = Some w) by (apply in_lookup; [apply H1|right; exact IQ]).
  assert (MID : exists ob2, Inv (Some q) (mkS (rem q (ptrs s1)) ob2 (next s)) [] /\ map fst ob2 = map fst (objs s) /\
                 forall x, option_map snd (olookup x ob2) = option_map snd (olookup x (objs s))).
  { destruct w as [o|].
    - assert (LO : olookup o (objs s1) <> None) by (eapply (i_tgt _ _ _ H1 p); left; reflexivity).
      destruct (olookup o (objs s1)) as [[c k]|] eqn:EO; [|congruence].
      assert (C2 : cnt (ptrs s1) o = S (cnt (ptrs s) o)).
      { unfold s1, cnt. cbn [ptrs filter snd targets]. rewrite Nat.eqb_refl. reflexivity. }
      assert (C1 : 0 < cnt (ptrs s) o) by (apply cnt_pos; eauto).
      assert (SM : (Z.of_nat (cnt (ptrs s1) o) < 4294967296)%Z) by (specialize (U o); lia).
      destruct (inv_drop _ _ _ _ _ _ _ H2 SM EQ EO) as (_ & HC & _ & H3).
      cbn zeta in H3. destruct (Z.eqb_spec (c - 1) 0) as [Z|Z]; [lia|].
      eexists. split; [exact H3|]. split; [rewrite keys_oset; exact OB1|]. intros x. rewrite <- OB2. eapply snd_oset; eauto.
    - exists ob. split; [apply (inv_drop_null _ _ _ _ H2 EQ)|]. auto. }
  destruct MID as (ob2 & H3 & OB3 & OB4).
  destruct (put_ok (Some q) (mkS (rem q (ptrs s1)) ob2 (next s)) q None H3) as (ob4 & E4 & H4 & _); auto.
  { cbn [ptrs]. rewrite key_rem. tauto. }
  cbn [put objs ptrs next] in E4. injection E4 as <-. cbn [ptrs next] in H4.
  eexists. split; [exact H4|]. cbn [ptrs objs next]. split; [reflexivity|]. split; [reflexivity|]. split; [exact OB3|]. split; [exact OB4|].
  intros o. unfold cnt at 1. cbn [filter snd targets]. fold (cnt (rem q (ptrs s1)) o).
  destruct (cnt_rem _ _ _ o (i_nd _ _ _ H1) EQ) as [A _].
  assert (B : cnt (ptrs s1) o = (if targets o w then 1 else 0) + cnt (ptrs s) o).
  { unfold s1, cnt. cbn [ptrs filter snd]. destruct (targets o w); reflexivity. }
  specialize (U o). lia.
Qed.

Lemma reach_heldx : forall h s o, reach h (ptrs s) o <-> heldx h s o.
Proof.
  intros h s o. split; intros H; induction H.
  - apply (hx_root h s p); auto; destruct p; auto; discriminate.
  - eapply hx_field; eauto.
  - apply (reach_root h _ p); auto; destruct p; auto; discriminate.
  - eapply reach_field; eauto.
Qed.

Record UI (su : ustate) : Prop := {
  u_sc : exists sc, rel sc su /\ Inv None sc [];
  u_uniq : uniq (uptrs su);
  u_tmp : ~ In Tmp (map fst (uptrs su))
}.

Record UAfter (su su1 : ustate) (ws : list place) : Prop := {
  ua_inv : UI su1;
  ua_var : forall q v, In (q, v) (uptrs su) -> ~ In q ws -> root q = true -> In (q, v) (uptrs su1);
  ua_old : forall q v, In (q, v) (uptrs su1) -> ~ In q ws -> In (q, v) (uptrs su);
  ua_objs : forall o k, ufind o (uobjs su1) = Some k -> ufind o (uobjs su) = Some k;
  ua_next : unext su1 = unext su
}.

Lemma is_field_root : forall p, is_field p = negb (root p).
Proof. destruct p; reflexivity. Qed.

Lemma unamed_drop : forall h sc su p, rel sc su -> unamed h su p -> droppable sc p.
Proof.
  intros h sc su p [] N. destruct p as [x|o f|]; cbn [unamed] in N; rewrite ?r_ptrs0 in N.
  - split; [exact N|exact I].
  - destruct N as [A B]. split; [exact B|]. apply (heldx_held h). apply reach_heldx. exact A.
  - destruct N.
Qed.

Lemma not_tmp : forall h su p, unamed h su p -> p <> Tmp.
Proof. intros h su p N ->. exact N. Qed.

Lemma find_keeps : forall sc sc1 su su1, rel sc su -> rel sc1 su1 ->
  (forall o c k, olookup o (objs sc1) = Some (c, k) -> exists d, olookup o (objs sc) = Some (d, k)) ->
  forall o k, ufind o (uobjs su1) = Some k -> ufind o (uobjs su) = Some k.
Proof.
  intros sc sc1 su su1 R R1 K o k. rewrite (r_find _ _ R), (r_find _ _ R1). destruct (olookup o (objs sc1)) as [[c j]|] eqn:E; [|discriminate].
  destruct (K _ _ _ E) as (d & ->). auto.
Qed.

Lemma rel_same_objs : forall sc sc1 su su1, rel sc su -> ptrs sc1 = uptrs su1 -> next sc1 = unext su1 -> uobjs su1 = uobjs su ->
  map fst (objs sc1) = map fst (objs sc) -> (forall x, option_map snd (olookup x (objs sc1)) = option_map snd (olookup x (objs sc))) ->
  rel sc1 su1.
Proof.
  intros sc sc1 su su1 [] P N O K F. constructor; auto; congruence.
Qed.

(* Clearing p after its target is deleted; also move(p, p). *)
Lemma uclear : forall sc su p, rel sc su -> Inv None sc [] -> UI su -> droppable sc p -> p <> Tmp ->
  exists su1, udrop su p = UOk su1 /\ UAfter su (uput su1 p None) [p].
Proof.
  intros sc su p R H [_ U NT] D PT. pose proof (r_ptrs _ _ R) as RP. rewrite RP in *.
  destruct (udrop_ok sc su p R H U D) as (su1 & sc1 & E & R1 & H1 & K1 & N1 & U1). exists su1. split; [exact E|].
  destruct (put_ok (Some p) sc1 p None H1 N1 (or_introl eq_refl) ltac:(auto) I I) as (ob & E2 & H2 & _).
  cbn [put] in E2. injection E2 as <-. pose proof K1 as [k_next0 k_sub0 k_len0 k_root0 k_field0 k_held0 k_objs0].
  constructor.
  - constructor.
    + eexists. split; [|exact H2]. destruct R1. constructor; cbn [ptrs objs next uput uptrs uobjs unext]; auto; congruence.
    + unfold uput. cbn [uptrs]. rewrite (r_ptrs _ _ R1). exact U1.
    + unfold uput. cbn [uptrs map fst]. rewrite (r_ptrs _ _ R1). intros [Q|Q]; [auto|]. apply NT.
      apply in_map_iff in Q. destruct Q as (e & Q & J). apply in_map_iff. eauto.
  - unfold uput. cbn [uptrs]. rewrite (r_ptrs _ _ R1), RP. intros q v J NW RT. right. apply k_root0; auto.
    + intros Q. apply NW. left. congruence.
    + rewrite is_field_root, RT. reflexivity.
  - unfold uput. cbn [uptrs]. rewrite (r_ptrs _ _ R1), RP. intros q v [Q|Q] NW; [|auto]. destruct NW. left. congruence.
  - unfold uput. cbn [uobjs]. eapply find_keeps; eauto.
  - unfold uput. cbn [unext]. rewrite (r_next _ _ R1), k_next0, <- (r_next _ _ R). reflexivity.
Qed.

Lemma umove_ok : forall su p q, UI su -> unamed None su p -> unamed (Some p) su q -> p <> q ->
  exists su1 v, ustep su (UMove p q) = UOk su1 /\ lookup q (uptrs su) = Some v /\ UAfter su su1 [p; q] /\
    In (p, v) (uptrs su1) /\ In (q, None) (uptrs su1).
Proof.
  intros su p q [(sc & R & H) U NT] NP NQ D. pose proof (r_ptrs _ _ R) as RP.
  pose proof (unamed_drop _ _ _ _ R NP) as DP. cbn [ustep]. unfold umove.
  destruct (proj1 (lookup_key _ _) (proj1 DP)) as (vp & EP). rewrite RP, EP. rewrite RP in *.
  destruct (udrop_ok sc su p R H U DP) as (su1 & sc1 & E & R1 & H1 & K1 & N1 & U1). rewrite E. cbn [ubind].
  destruct (place_dec p q) as [|_]; [congruence|].
  destruct (unamed_drop _ _ _ _ R NQ) as [KQ _]. destruct (proj1 (lookup_key _ _) KQ) as (v & EQ).
  pose proof K1 as [k_next0 k_sub0 k_len0 k_root0 k_field0 k_held0 k_objs0]. pose proof (lookup_in _ _ _ EQ) as IQ.
  assert (HQ : match q with Field o _ => heldx (Some p) sc o | _ => True end).
  { destruct q; auto. cbn [unamed] in NQ. rewrite RP in NQ. apply reach_heldx. apply NQ. }
  assert (IQ1 : In (q, v) (ptrs sc1)).
  { destruct q as [x|o f|]; [apply k_root0; auto; congruence|apply k_field0; auto; congruence|destruct NQ]. }
  assert (EQ1 : lookup q (uptrs su1) = Some v) by (rewrite (r_ptrs _ _ R1); apply in_lookup; [apply H1|exact IQ1]).
  rewrite EQ1. eexists _, v. split; [reflexivity|]. split; [exact EQ|].
  destruct (transfer (Some p) sc1 p q v H1 U1 N1 (or_introl eq_refl) ltac:(auto) IQ1 ltac:(congruence)) as (sc2 & H2 & P2 & X2 & O2 & F2 & U2).
  { destruct q; auto. apply (heldx_held (Some p)). auto. }
  assert (R2 : rel sc2 (uset (uput su1 p v) q None)).
  { eapply (rel_same_objs sc1 sc2 su1); eauto; unfold uset, uput; cbn [uptrs uobjs unext].
    - rewrite P2, (r_ptrs _ _ R1). reflexivity.
    - rewrite X2, (r_next _ _ R1). reflexivity. }
  assert (PS : uptrs (uset (uput su1 p v) q None) = (q, None) :: rem q ((p, v) :: ptrs sc1)).
  { unfold uset, uput. cbn [uptrs]. rewrite (r_ptrs _ _ R1). reflexivity. }
  split; [|split].
  - constructor.
    + constructor.
      * eauto.
      * rewrite PS, <- P2. exact U2.
      * rewrite PS. cbn [map fst]. intros [Q|Q]; [apply (not_tmp _ _ _ NQ); exact Q|]. apply key_rem in Q. cbn [map fst In] in Q.
        destruct Q as [[Q|Q] _]; [apply (not_tmp _ _ _ NP); exact Q|]. apply NT.
        apply in_map_iff in Q. destruct Q as (e & Q & J). apply in_map_iff. eauto.
    + rewrite PS, RP. intros r w J NW RT. right. apply in_rem. cbn [fst]. cbn [In] in NW. split; [|intros ->; tauto].
      right. apply k_root0; auto; [intros Q; apply NW; left; congruence|]. rewrite is_field_root, RT. reflexivity.
    + rewrite PS, RP. intros r w J NW. cbn [In] in NW. destruct J as [Q|Q]; [destruct NW; right; left; congruence|].
      apply in_rem in Q. destruct Q as [[Q|Q] _]; [destruct NW; left; congruence|]. auto.
    + unfold uset, uput. cbn [uobjs]. eapply find_keeps; eauto.
    + unfold uset, uput. cbn [unext]. rewrite (r_next _ _ R1), k_next0, (r_next _ _ R). reflexivity.
  - rewrite PS. right. apply in_rem. split; [left; reflexivity|]. cbn. congruence.
  - rewrite PS. left. reflexivity.
Qed.

Lemma urelease_ok : forall su x p, UI su -> ufresh su x -> unamed None su p ->
  exists su1 v, ustep su (URelease x p) = UOk su1 /\ lookup p (uptrs su) = Some v /\ UAfter su su1 [Var x; p] /\
    In (Var x, v) (uptrs su1) /\ In (p, None) (uptrs su1) /\ uobjs su1 = uobjs su.
Proof.
  intros su x p [(sc & R & H) U NT] FR NP. pose proof (r_ptrs _ _ R) as RP. unfold ufresh in FR.
  destruct (unamed_drop _ _ _ _ R NP) as [KP HP]. destruct (proj1 (lookup_key _ _) KP) as (v & EP).
  cbn [ustep]. pose proof (proj2 (lookup_none _ _) FR) as EX. rewrite EX. rewrite RP in *. rewrite EP.
  pose proof (lookup_in _ _ _ EP) as IP. eexists _, v. split; [reflexivity|]. split; [reflexivity|].
  assert (DX : p <> Var x) by (intros ->; contradiction).
  destruct (transfer None sc (Var x) p v H U FR I ltac:(discriminate) IP DX HP) as (sc2 & H2 & P2 & X2 & O2 & F2 & U2).
  assert (R2 : rel sc2 (uset (uput su (Var x) v) p None)).
  { eapply (rel_same_objs sc sc2 su); eauto; unfold uset, uput; cbn [uptrs uobjs unext].
    - rewrite P2, RP. reflexivity.
    - rewrite X2, (r_next _ _ R). reflexivity. }
  assert (PS : uptrs (uset (uput su (Var x) v) p None) = (p, None) :: rem p ((Var x, v) :: ptrs sc)).
  { unfold uset, uput. cbn [uptrs]. rewrite RP. reflexivity. }
  split; [|split; [|split]].
  - constructor.
    + constructor.
      * eauto.
      * rewrite PS, <- P2. exact U2.
      * rewrite PS. cbn [map fst]. intros [Q|Q]; [apply (not_tmp _ _ _ NP); exact Q|]. apply key_rem in Q. cbn [map fst In] in Q.
        destruct Q as [[Q|Q] _]; [discriminate|]. auto.
    + rewrite PS, RP. intros r w J NW RT. right. apply in_rem. cbn [fst]. cbn [In] in NW. split; [|intros ->; tauto]. right. exact J.
    + rewrite PS, RP. intros r w J NW. cbn [In] in NW. destruct J as [Q|Q]; [destruct NW; right; left; congruence|].
      apply in_rem in Q. destruct Q as [[Q|Q] _]; [destruct NW; left; congruence|]. auto.
    + unfold uset, uput. cbn [uobjs]. auto.
    + reflexivity.
  - rewrite PS. right. apply in_rem. split; [left; reflexivity|]. cbn. congruence.
  - rewrite PS. left. reflexivity.
  - reflexivity.
Qed.

Lemma unull_ok : forall su x, UI su -> ufresh su x ->
  exists su1, ustep su (UNull x) = UOk su1 /\ UAfter su su1 [Var x] /\ In (Var x, None) (uptrs su1).
Proof.
  intros su x [(sc & R & H) U NT] FR. pose proof (r_ptrs _ _ R) as RP. unfold ufresh in FR.
  cbn [ustep]. rewrite (proj2 (lookup_none _ _) FR). eexists. split; [reflexivity|]. rewrite RP in *.
  destruct (put_ok None sc (Var x) None H FR I ltac:(discriminate) I I) as (ob & E2 & H2 & _).
  cbn [put] in E2. injection E2 as <-. split; [|left; reflexivity].
  constructor.
  - constructor.
    + eexists. split; [|exact H2]. destruct R. constructor; cbn [ptrs objs next uput uptrs uobjs unext]; auto; congruence.
    + unfold uput. cbn [uptrs]. rewrite RP. exact U.
    + unfold uput. cbn [uptrs map fst]. rewrite RP. intros [Q|Q]; [discriminate|auto].
  - intros q v J _ _. right. exact J.
  - intros q v [Q|Q] NW; [destruct NW; left; congruence|exact Q].
  - auto.
  - reflexivity.
Qed.

Lemma udropvar_ok : forall su x, UI su -> unamed None su (Var x) ->
  exists su1, ustep su (UDrop x) = UOk su1 /\ UAfter su su1 [Var x] /\ ~ In (Var x) (map fst (uptrs su1)).
Proof.
  intros su x [(sc & R & H) U NT] NP. pose proof (r_ptrs _ _ R) as RP.
  pose proof (unamed_drop _ _ _ _ R NP) as DP. cbn [ustep].
  destruct (proj1 (lookup_key _ _) (proj1 DP)) as (vp & EP). rewrite RP, EP. rewrite RP in *.
  destruct (udrop_ok sc su _ R H U DP) as (su1 & sc1 & E & R1 & H1 & K1 & N1 & U1). exists su1. split; [exact E|].
  pose proof (r_ptrs _ _ R1) as RP1. rewrite RP1. split; [|exact N1]. destruct K1 as [k_next0 k_sub0 k_len0 k_root0 k_field0 k_held0 k_objs0]. constructor.
  - constructor; rewrite ?RP1; auto.
    + exists sc1. split; [exact R1|]. eapply inv_close; [exact H1|reflexivity].
    + intros Q. apply NT. apply in_map_iff in Q. destruct Q as (e & Q & J). apply in_map_iff. eauto.
  - rewrite RP, RP1. intros q v J NW RT. apply k_root0; auto; [intros Q; apply NW; left; congruence|].
    rewrite is_field_root, RT. reflexivity.
  - rewrite RP, RP1. auto.
  - eapply find_keeps; eauto.
  - rewrite (r_next _ _ R1), k_next0, (r_next _ _ R). reflexivity.
Qed.

Lemma unew_ok : forall su x k, UI su -> ufresh su x ->
  exists su1, ustep su (UNew x k) = UOk su1 /\ UI su1 /\
    uptrs su1 = (Var x, Some (unext su)) :: map (fun f => (Field (unext su) f, None)) (seq 0 k) ++ uptrs su /\
    uobjs su1 = (unext su, k) :: uobjs su /\ unext su1 = S (unext su) /\ ufind (unext su) (uobjs su) = None.
Proof.
  intros su x k [(sc & R & H) U NT] FR. pose proof (r_ptrs _ _ R) as RP. pose proof (r_next _ _ R) as RN. unfold ufresh in FR.
  cbn [ustep]. rewrite (proj2 (lookup_none _ _) FR). rewrite RP in *. rewrite RN.
  destruct (new_ok sc x k H NT FR) as (sc1 & E & H1 & T1 & P1 & O1 & X1).
  eexists. split; [reflexivity|]. cbn [uptrs uobjs unext]. split; [|split; [reflexivity|split; [reflexivity|split; [reflexivity|]]]].
  - constructor; cbn [uptrs]; rewrite <- P1.
    + exists sc1. split; [|exact H1]. constructor; cbn [uptrs uobjs unext]; auto.
      * rewrite O1. cbn [map fst]. f_equal. apply (r_keys _ _ R).
      * intros o. rewrite O1. unfold ufind, olookup. cbn [find fst]. destruct (Nat.eqb (next sc) o); [reflexivity|]. apply (r_find _ _ R).
    + (* counts *)
      assert (CN : cnt (ptrs sc) (next sc) = 0).
      { destruct (cnt (ptrs sc) (next sc)) eqn:C; [reflexivity|]. assert (P : 0 < cnt (ptrs sc) (next sc)) by lia. apply cnt_pos in P.
        destruct P as (p & P). apply (i_tgt _ _ _ H) in P. apply (i_next _ _ _ H) in P. lia. }
      intros o. rewrite P1. change (?a :: ?b ++ ?c) with ([a] ++ b ++ c). rewrite !cnt_app.
      assert (CF : cnt (map (fun f => (Field (next sc) f, @None nat)) (seq 0 k)) o = 0).
      { destruct (cnt _ o) eqn:C; [reflexivity|]. match type of C with ?a = _ => assert (P : 0 < a) by lia end. apply cnt_pos in P.
        destruct P as (p & P). apply in_map_iff in P. destruct P as (f & P & _). discriminate. }
      rewrite CF. unfold cnt at 1. cbn [filter snd targets]. specialize (U o).
      destruct (Nat.eqb_spec (next sc) o) as [<-|]; cbn [length]; lia.
    + exact T1.
  - rewrite (r_find _ _ R). destruct (olookup (next sc) (objs sc)) eqn:Q; [|reflexivity].
    assert (next sc < next sc) by (apply (i_next _ _ _ H); congruence). lia.
Qed.

Lemma ui_start : UI ustart.
Proof.
  constructor.
  - exists start. split; [constructor; reflexivity|apply inv_start].
  - intros o. cbn. lia.
  - intros [].
Qed.

(* move(p, p) *)
Lemma umove_self : forall su p, UI su -> unamed None su p ->
  exists su1, ustep su (UMove p p) = UOk su1 /\ UAfter su su1 [p] /\ In (p, None) (uptrs su1) /\
    ustep su (UAssignNull p) = UOk su1.
Proof.
  intros su p HI NP. pose proof HI as [(sc & R & H) U NT]. pose proof (unamed_drop _ _ _ _ R NP) as DP.
  destruct (uclear sc su p R H HI DP (not_tmp _ _ _ NP)) as (su1 & E & A).
  cbn [ustep]. unfold umove. destruct (proj1 (lookup_key _ _) (proj1 DP)) as (v & EP). rewrite (r_ptrs _ _ R), EP, E. cbn [ubind].
  destruct (place_dec p p); [|congruence]. eexists. split; [reflexivity|]. split; [exact A|]. split; [left; reflexivity|reflexivity].
Qed.

Lemma ustep_ok : forall su o, UI su -> ufine su o -> exists su1, ustep su o = UOk su1 /\ UI su1.
Proof.
  intros su o H F. destruct o as [x|x k|x|p q|p|x p]; cbn [ufine] in F.
  - destruct (unull_ok su x H F) as (s1 & E & A & _). exists s1. split; [exact E|apply A].
  - destruct (unew_ok su x k H F) as (s1 & E & A & _). eauto.
  - destruct (udropvar_ok su x H F) as (s1 & E & A & _). exists s1. split; [exact E|apply A].
  - destruct F as [NP NQ]. destruct (place_dec p q) as [<-|D].
    + destruct (umove_self su p H NP) as (s1 & E & A & _). exists s1. split; [exact E|apply A].
    + destruct (umove_ok su p q H NP NQ D) as (s1 & v & E & _ & A & _). exists s1. split; [exact E|apply A].
  - destruct (umove_self su p H F) as (s1 & _ & A & _ & E). exists s1. split; [exact E|apply A].
  - destruct F as [FR NP]. destruct (urelease_ok su x p H FR NP) as (s1 & v & E & _ & A & _). exists s1. split; [exact E|apply A].
Qed.

Lemma ui_run : forall l s, urun l s -> UI s.
Proof.
  induction 1 as [|l s o s1 R H F E]; [apply ui_start|].
  destruct (ustep_ok s o H F) as (s2 & E2 & A). congruence.
Qed.

(* Fields of objects that stay keep their values. *)
Lemma ua_fld : forall su su1 ws, UI su -> UAfter su su1 ws -> forall o f v,
  In (Field o f, v) (uptrs su) -> ~ In (Field o f) ws -> ufind o (uobjs su1) <> None -> In (Field o f, v) (uptrs su1).
Proof.
  intros su su1 ws [(sc & R & H) U NT] [[(sc1 & R1 & H1) U1 NT1] V O B X] o f v J NW LV.
  destruct (ufind o (uobjs su1)) as [k|] eqn:E1; [|congruence]. pose proof (B _ _ E1) as E0.
  rewrite (r_find _ _ R) in E0. rewrite (r_find _ _ R1) in E1.
  destruct (olookup o (objs sc)) as [[c k0]|] eqn:Q0; [|discriminate]. destruct (olookup o (objs sc1)) as [[c1 k1]|] eqn:Q1; [|discriminate].
  cbn in E0, E1. injection E0 as ->. injection E1 as ->. rewrite (r_ptrs _ _ R) in J.
  destruct (i_fld1 _ _ _ H o f (key_in _ _ _ J)) as (c2 & k2 & Q & L). rewrite Q0 in Q. injection Q as <- <-.
  assert (LV1 : olookup o (objs sc1) <> None) by congruence.
  destruct (i_fld2 _ _ _ H1 o f c1 k Q1 (live_pos _ _ H1 LV1) L) as [W|W]; [|discriminate].
  apply lookup_key in W. destruct W as (w & W). apply lookup_in in W. rewrite <- (r_ptrs _ _ R1) in W.
  pose proof (O _ _ W NW) as Y. rewrite (r_ptrs _ _ R) in Y.
  pose proof (in_lookup _ _ _ (i_nd _ _ _ H) J). pose proof (in_lookup _ _ _ (i_nd _ _ _ H) Y). assert (w = v) by congruence. subst. exact W.
Qed.
