From Coq Require Import List Bool Arith ZArith Lia ZifyBool FinFun.
From Verif.CounterPtr Require Import Model Spec.
Import ListNotations.

Notation keys l := (map fst l).

(* Lists of pointers. *)
Lemma lookup_in : forall l p v, lookup p l = Some v -> In (p, v) l.
Proof.
  intros l p v H. unfold lookup in H. destruct (find _ l) as [[p1 v1]|] eqn:E; [|discriminate].
  apply find_some in E. destruct E as [I E]. cbn [fst snd] in *. injection H as <-.
  destruct (place_dec p1 p); [subst; exact I|discriminate].
Qed.

Lemma lookup_none : forall l p, lookup p l = None <-> ~ In p (keys l).
Proof.
  intros l p. unfold lookup. split; intros H.
  - destruct (find _ l) eqn:E; [discriminate|]. intros I. apply in_map_iff in I. destruct I as ((p1 & v) & <- & I).
    pose proof (find_none _ _ E _ I) as Q. cbn [fst] in Q. destruct (place_dec p1 p1); [discriminate|congruence].
  - destruct (find _ l) as [[p1 v]|] eqn:E; [|reflexivity]. apply find_some in E. destruct E as [I E]. cbn [fst] in E.
    destruct (place_dec p1 p); [|discriminate]. subst. destruct H. apply (in_map fst) in I. exact I.
Qed.

Lemma lookup_key : forall l p, In p (keys l) <-> exists v, lookup p l = Some v.
Proof.
  intros l p. destruct (lookup p l) eqn:E.
  - split; [eauto|]. intros _. apply lookup_in in E. apply (in_map fst) in E. exact E.
  - split; [|intros (v & Q); discriminate]. intros I. apply lookup_none in E. contradiction.
Qed.

Lemma in_lookup : forall l p v, NoDup (keys l) -> In (p, v) l -> lookup p l = Some v.
Proof.
  induction l as [|(p1, v1) l IH]; intros p v N I; [destruct I|]. cbn [map fst] in N. inversion N; subst.
  unfold lookup. cbn [find fst]. destruct (place_dec p1 p) as [->|D].
  - destruct I as [Q|Q]; [injection Q as ->; reflexivity|]. apply (in_map fst) in Q. contradiction.
  - destruct I as [Q|Q]; [congruence|]. apply (IH p v H2 Q).
Qed.

Lemma in_rem : forall l p e, In e (rem p l) <-> In e l /\ fst e <> p.
Proof.
  intros. unfold rem. rewrite filter_In. destruct (place_dec (fst e) p); intuition congruence.
Qed.

Lemma key_rem : forall l p q, In q (keys (rem p l)) <-> In q (keys l) /\ q <> p.
Proof.
  intros. rewrite !in_map_iff. split.
  - intros (e & <- & I). apply in_rem in I. destruct I. split; eauto.
  - intros ((e & <- & I) & D). exists e. split; auto. apply in_rem. auto.
Qed.

Lemma nodup_rem : forall l p, NoDup (keys l) -> NoDup (keys (rem p l)).
Proof.
  induction l as [|e l IH]; intros p N; [constructor|]. cbn [map] in N. inversion N; subst.
  unfold rem. cbn [filter]. destruct (place_dec (fst e) p); [apply IH; auto|].
  cbn [map]. constructor; [|apply IH; auto]. intros I. apply key_rem in I. tauto.
Qed.

Lemma rem_notin : forall l p, ~ In p (keys l) -> rem p l = l.
Proof.
  induction l as [|e l IH]; intros p N; [reflexivity|]. unfold rem. cbn [filter]. cbn [map In] in N.
  destruct (place_dec (fst e) p); [tauto|]. f_equal. apply IH. tauto.
Qed.

Lemma cnt_rem : forall l p v o, NoDup (keys l) -> lookup p l = Some v ->
  cnt l o = cnt (rem p l) o + (if targets o v then 1 else 0) /\ length l = S (length (rem p l)).
Proof.
  induction l as [|e l IH]; intros p v o N E; [discriminate|]. cbn [map] in N. inversion N; subst.
  unfold rem, lookup in *. cbn [filter find] in *. destruct (place_dec (fst e) p) as [<-|D].
  - injection E as <-. change (filter _ l) with (rem (fst e) l). rewrite rem_notin by auto.
    unfold cnt. cbn [filter]. destruct (targets o (snd e)); cbn [length]; lia.
  - destruct (IH p v o H2 E) as [A B]. unfold cnt in *. cbn [filter length]. rewrite B.
    destruct (targets o (snd e)); cbn [length]; rewrite A; lia.
Qed.

Lemma cnt_pos : forall l o, 0 < cnt l o <-> exists p, In (p, Some o) l.
Proof.
  intros l o. unfold cnt. split.
  - intros H. destruct (filter _ l) as [|e m] eqn:E; [cbn in H; lia|].
    assert (I : In e (e :: m)) by (left; reflexivity). rewrite <- E in I. apply filter_In in I. destruct I as [I T].
    destruct e as [p [x|]]; cbn [snd targets] in T; [|discriminate]. apply Nat.eqb_eq in T. subst. eauto.
  - intros (p & I). assert (J : In (p, Some o) (filter (fun e => targets o (snd e)) l)).
    { apply filter_In. split; [exact I|]. cbn. apply Nat.eqb_refl. }
    destruct (filter _ l); [destruct J|cbn; lia].
Qed.

Lemma cnt_len : forall l o, cnt l o <= length l.
Proof. intros. unfold cnt. induction l as [|e l IH]; cbn [filter length]; [lia|]. destruct (targets o (snd e)); cbn [length]; lia. Qed.

(* Lists of objects. *)
Lemma olookup_none : forall l o, olookup o l = None <-> ~ In o (keys l).
Proof.
  intros l p. unfold olookup. split; intros H.
  - destruct (find _ l) eqn:E; [discriminate|]. intros I. apply in_map_iff in I. destruct I as ((p1 & v) & <- & I).
    pose proof (find_none _ _ E _ I) as Q. cbn [fst] in Q. rewrite Nat.eqb_refl in Q. discriminate.
  - destruct (find _ l) as [[p1 v]|] eqn:E; [|reflexivity]. apply find_some in E. destruct E as [I E]. cbn [fst] in E.
    apply Nat.eqb_eq in E. subst. destruct H. apply (in_map fst) in I. exact I.
Qed.

Lemma olookup_orem : forall l o x, olookup x (orem o l) = if Nat.eqb x o then None else olookup x l.
Proof.
  induction l as [|e l IH]; intros o x; unfold orem, olookup in *; cbn [filter find]; [now destruct (Nat.eqb x o)|].
  destruct (Nat.eqb_spec (fst e) o); cbn [negb].
  - rewrite IH. destruct (Nat.eqb_spec x o); [reflexivity|]. destruct (Nat.eqb_spec (fst e) x); [congruence|reflexivity].
  - cbn [find]. destruct (Nat.eqb_spec (fst e) x); [destruct (Nat.eqb_spec x o); [congruence|reflexivity]|apply IH].
Qed.

Lemma olookup_oset : forall l o v x, olookup x (oset o v l) =
  if Nat.eqb x o then (match olookup o l with Some _ => Some v | None => None end) else olookup x l.
Proof.
  induction l as [|e l IH]; intros o v x; unfold oset, olookup in *; cbn [map find]; [now destruct (Nat.eqb x o)|].
  destruct (Nat.eqb_spec (fst e) o); cbn [fst].
  - destruct (Nat.eqb_spec o x) as [->|D].
    + rewrite Nat.eqb_refl. cbn [snd]. reflexivity.
    + rewrite IH. destruct (Nat.eqb_spec x o); [congruence|]. destruct (Nat.eqb_spec (fst e) x); [congruence|reflexivity].
  - destruct (Nat.eqb_spec (fst e) x) as [EX|D].
    + destruct (Nat.eqb_spec x o); [congruence|reflexivity].
    + apply IH.
Qed.

Lemma orem_len : forall l o, olookup o l <> None -> length (orem o l) < length l.
Proof.
  induction l as [|e l IH]; intros o H; [destruct H; reflexivity|].
  unfold orem, olookup in *. cbn [filter find] in *. destruct (Nat.eqb_spec (fst e) o); cbn [negb].
  - clear. cbn [length]. induction l as [|x l IH]; cbn [filter length]; [lia|]. destruct (negb _); cbn [length]; lia.
  - specialize (IH o H). cbn [length]. lia.
Qed.

Lemma oset_len : forall l o v, length (oset o v l) = length l.
Proof. intros. apply map_length. Qed.

(* Paths that do not use the pointer h. *)
Inductive heldx (h : option place) (s : state) : nat -> Prop :=
  | hx_root : forall p o, is_field p = false -> h <> Some p -> In (p, Some o) (ptrs s) -> heldx h s o
  | hx_field : forall o f o1, heldx h s o -> h <> Some (Field o f) -> In (Field o f, Some o1) (ptrs s) -> heldx h s o1.

Lemma held_heldx : forall s o, held s o -> heldx None s o.
Proof. induction 1; [eapply hx_root|eapply hx_field]; eauto; discriminate. Qed.

Lemma heldx_held : forall h s o, heldx h s o -> held s o.
Proof. induction 1; [eapply held_root|eapply held_field]; eauto. Qed.

(* An object one can get at, one can get at without its own fields. *)
Lemma held_self : forall s o f, held s o -> heldx (Some (Field o f)) s o.
Proof.
  intros s o f H.
  assert (G : forall x, held s x -> heldx (Some (Field o f)) s x \/ heldx (Some (Field o f)) s o).
  { clear H. induction 1 as [p x F I|x g x1 H IH I].
    - left. eapply hx_root; eauto. intros Q. injection Q as <-. discriminate.
    - destruct IH as [IH|IH]; [|auto]. destruct (place_dec (Field o f) (Field x g)) as [Q|Q].
      + injection Q as <- <-. auto.
      + left. eapply hx_field; eauto. congruence. }
  destruct (G o H); auto.
Qed.

Lemma heldx_cnt : forall h s o, heldx h s o -> 0 < cnt (ptrs s) o.
Proof. intros h s o H. apply cnt_pos. destruct H; eauto. Qed.

Record Inv (h : option place) (s : state) (wl : list work) : Prop := {
  i_nd : NoDup (keys (ptrs s));
  i_next : forall o, olookup o (objs s) <> None -> o < next s;
  i_cnt : forall o c k, olookup o (objs s) = Some (c, k) -> c = Z.of_nat (cnt (ptrs s) o);
  i_tgt : forall p o, In (p, Some o) (ptrs s) -> olookup o (objs s) <> None;
  i_dead : forall o, In (WFree o) wl <-> (olookup o (objs s) <> None /\ cnt (ptrs s) o = 0);
  i_fld1 : forall o f, In (Field o f) (keys (ptrs s)) -> exists c k, olookup o (objs s) = Some (c, k) /\ f < k;
  i_fld2 : forall o f c k, olookup o (objs s) = Some (c, k) -> 0 < cnt (ptrs s) o -> f < k ->
             In (Field o f) (keys (ptrs s)) \/ h = Some (Field o f);
  i_hole : forall o f, h = Some (Field o f) -> heldx h s o /\ exists c k, olookup o (objs s) = Some (c, k) /\ f < k;
  i_hole2 : forall p, h = Some p -> In p (keys (ptrs s)) -> In (WDrop p) wl;
  i_wd : forall p, In (WDrop p) wl -> In p (keys (ptrs s)) /\
           (h = Some p \/ exists o f, p = Field o f /\ cnt (ptrs s) o = 0);
  i_ndw : NoDup wl;
  i_ord : forall l1 o l2 f, wl = l1 ++ WFree o :: l2 -> In (Field o f) (keys (ptrs s)) -> In (WDrop (Field o f)) l1
}.

(* Taking a pointer away that is the hole, or a field of a dead object, keeps
   paths. *)
Lemma heldx_rem : forall h s s1 p, ptrs s1 = rem p (ptrs s) ->
  (h = Some p \/ exists o f, p = Field o f /\ cnt (ptrs s) o = 0) ->
  forall x, heldx h s x -> heldx h s1 x.
Proof.
  intros h s s1 p E D x H. induction H as [q o F N I|o f o1 H IH N I].
  - apply (hx_root h s1 q); auto. rewrite E. apply in_rem. split; [exact I|]. cbn [fst]. intros ->.
    destruct D as [D|(a & b & -> & _)]; [congruence|discriminate].
  - apply (hx_field h s1 o f); auto. rewrite E. apply in_rem. split; [exact I|]. cbn [fst]. intros Q.
    destruct D as [D|(a & b & P & Z)]; [congruence|]. apply heldx_cnt in H. assert (a = o) by congruence. subst a. lia.
Qed.

Lemma in_fields : forall o k w, In w (fields o k) <-> exists f, w = WDrop (Field o f) /\ f < k.
Proof.
  intros. unfold fields. rewrite in_map_iff. split.
  - intros (f & <- & I). apply in_seq in I. exists f. split; [reflexivity|lia].
  - intros (f & -> & L). exists f. split; [reflexivity|]. apply in_seq. lia.
Qed.

Lemma nodup_fields : forall o k, NoDup (fields o k).
Proof.
  intros. unfold fields. apply FinFun.Injective_map_NoDup; [|apply seq_NoDup].
  intros a b Q. congruence.
Qed.

Lemma nodup_app : forall A (a b : list A), NoDup a -> NoDup b -> (forall x, In x a -> ~ In x b) -> NoDup (a ++ b).
Proof.
  intros T. induction a as [|x a IH]; intros b A B D; cbn [app]; [exact B|]. inversion A; subst. constructor.
  - rewrite in_app_iff. intros [Q|Q]; [auto|]. apply (D x); [left; reflexivity|exact Q].
  - apply IH; auto. intros y I. apply D. right. exact I.
Qed.

Lemma cons_split : forall (w : work) wl l1 o l2, wl = l1 ++ WFree o :: l2 -> w :: wl = (w :: l1) ++ WFree o :: l2.
Proof. intros. subst. reflexivity. Qed.

(* One pointer goes: WDrop on a null pointer. *)
Lemma inv_drop_null : forall h s p wl, Inv h s (WDrop p :: wl) -> lookup p (ptrs s) = Some None ->
  Inv h (mkS (rem p (ptrs s)) (objs s) (next s)) wl.
Proof.
  intros h s p wl [] E. assert (NW : NoDup wl /\ ~ In (WDrop p) wl) by (inversion i_ndw0; auto). destruct NW as [NW NI].
  assert (CE : forall o, cnt (rem p (ptrs s)) o = cnt (ptrs s) o).
  { intros o. destruct (cnt_rem _ _ _ o i_nd0 E) as [A _]. cbn [targets] in A. lia. }
  destruct (i_wd0 p (or_introl eq_refl)) as [_ DP].
  constructor; cbn [ptrs objs next]; auto.
  - apply nodup_rem; auto.
  - intros o c k Q. rewrite CE. eapply i_cnt0; eauto.
  - intros q o I. apply in_rem in I. apply (i_tgt0 q o). tauto.
  - intros o. rewrite CE, <- i_dead0. cbn [In]. intuition congruence.
  - intros o f I. apply key_rem in I. apply i_fld3. tauto.
  - intros o f c k Q C L. rewrite CE in C. destruct (i_fld4 o f c k Q C L) as [I|I]; [|auto].
    destruct (place_dec (Field o f) p) as [D|D]; [|left; apply key_rem; auto].
    right. destruct DP as [DP|(a & b & DP & Z)]; [congruence|]. assert (a = o) by congruence. subst a. lia.
  - intros o f Q. destruct (i_hole0 o f Q) as [A B]. split; [|exact B].
    eapply (heldx_rem h s _ p); eauto.
  - intros q Q I. apply key_rem in I. destruct (i_hole3 q Q (proj1 I)) as [X|X]; [|exact X]. injection X as <-. tauto.
  - intros q I. destruct (i_wd0 q (or_intror I)) as [A B]. split.
    + apply key_rem. split; [exact A|]. intros ->. contradiction.
    + destruct B as [B|(a & b & B & Z)]; [auto|]. right. exists a, b. rewrite CE. auto.
  - intros l1 o l2 f Q I. apply key_rem in I. destruct I as [I D].
    pose proof (i_ord0 (WDrop p :: l1) o l2 f (cons_split _ _ _ _ _ Q) I) as [X|X]; [|exact X]. congruence.
Qed.

Lemma wrap_small : forall z, (0 <= z < 4294967296)%Z -> wrap z = z.
Proof. intros. apply Z.mod_small. exact H. Qed.

(* WDrop on a pointer to o. *)
Lemma inv_drop : forall h s p wl o c k, Inv h s (WDrop p :: wl) -> (Z.of_nat (cnt (ptrs s) o) < 4294967296)%Z ->
  lookup p (ptrs s) = Some (Some o) -> olookup o (objs s) = Some (c, k) ->
  wrap (c - 1) = (c - 1)%Z /\ c = Z.of_nat (cnt (ptrs s) o) /\ (0 < c)%Z /\
  let s1 := mkS (rem p (ptrs s)) (oset o ((c - 1)%Z, k) (objs s)) (next s) in
  Inv h s1 (if Z.eqb (c - 1) 0 then fields o k ++ WFree o :: wl else wl).
Proof.
  intros h s p wl o c k [] SM E EO.
  assert (NW : NoDup wl /\ ~ In (WDrop p) wl) by (inversion i_ndw0; auto). destruct NW as [NW NI].
  pose proof (i_cnt0 o c k EO) as HC.
  assert (CE : forall x, cnt (ptrs s) x = cnt (rem p (ptrs s)) x + (if Nat.eqb o x then 1 else 0)).
  { intros x. destruct (cnt_rem _ _ _ x i_nd0 E) as [A _]. exact A. }
  assert (CO : cnt (ptrs s) o = S (cnt (rem p (ptrs s)) o)) by (rewrite (CE o), Nat.eqb_refl; lia).
  assert (CX : forall x, x <> o -> cnt (rem p (ptrs s)) x = cnt (ptrs s) x).
  { intros x D. rewrite (CE x). destruct (Nat.eqb_spec o x); [congruence|lia]. }
  split; [apply wrap_small; lia|]. split; [exact HC|]. split; [lia|]. cbn zeta.
  destruct (i_wd0 p (or_introl eq_refl)) as [_ DP].
  set (s1 := mkS (rem p (ptrs s)) (oset o ((c - 1)%Z, k) (objs s)) (next s)).
  assert (HX : forall x, heldx h s x -> heldx h s1 x) by (apply (heldx_rem h s s1 p); auto).
  assert (OL : forall x, olookup x (objs s1) <> None <-> olookup x (objs s) <> None).
  { intros x. unfold s1. cbn [objs]. rewrite olookup_oset. destruct (Nat.eqb_spec x o) as [->|]; [rewrite EO; split; discriminate|tauto]. }
  assert (OV : forall x d j, olookup x (objs s1) = Some (d, j) -> exists d0, olookup x (objs s) = Some (d0, j)).
  { intros x d j. unfold s1. cbn [objs]. rewrite olookup_oset. destruct (Nat.eqb_spec x o) as [->|]; [|eauto].
    rewrite EO. intros Q. injection Q as <- <-. eauto. }
  assert (OW : forall x d j, olookup x (objs s) = Some (d, j) -> exists d0, olookup x (objs s1) = Some (d0, j)).
  { intros x d j Q. unfold s1. cbn [objs]. rewrite olookup_oset. destruct (Nat.eqb_spec x o) as [->|]; [|eauto].
    rewrite EO in *. injection Q as <- <-. eauto. }
  (* fields of a dead object keep pointing out of the hole *)
  assert (HO : forall f, h = Some (Field o f) -> 0 < cnt (ptrs s1) o).
  { intros f Q. destruct (i_hole0 o f Q) as [A _]. apply HX in A. apply heldx_cnt in A. exact A. }
  assert (P1 : ptrs s1 = rem p (ptrs s)) by reflexivity.
  assert (A1 : forall q x, In (q, Some x) (ptrs s1) -> olookup x (objs s1) <> None).
  { intros q x I. rewrite P1 in I. apply in_rem in I. apply OL. apply (i_tgt0 q x). tauto. }
  assert (A2 : forall x f, In (Field x f) (keys (ptrs s1)) -> exists c k, olookup x (objs s1) = Some (c, k) /\ f < k).
  { intros x f I. rewrite P1 in I. apply key_rem in I. destruct (i_fld3 x f (proj1 I)) as (d & j & Q & L).
    destruct (OW _ _ _ Q) as (d0 & Q1). eauto. }
  assert (A3 : forall x f c k, olookup x (objs s1) = Some (c, k) -> 0 < cnt (ptrs s1) x -> f < k ->
             In (Field x f) (keys (ptrs s1)) \/ h = Some (Field x f)).
  { intros x f d j Q C L. destruct (OV _ _ _ Q) as (d0 & Q1). rewrite P1 in C.
    assert (C0 : 0 < cnt (ptrs s) x) by (rewrite (CE x); lia).
    destruct (i_fld4 x f d0 j Q1 C0 L) as [I|I]; [|auto].
    destruct (place_dec (Field x f) p) as [D|D]; [|left; rewrite P1; apply key_rem; auto].
    right. destruct DP as [DP|(a & b & DP & Z)]; [congruence|]. assert (a = x) by congruence. subst a. lia. }
  assert (A4 : forall x f, h = Some (Field x f) -> heldx h s1 x /\ exists c k, olookup x (objs s1) = Some (c, k) /\ f < k).
  { intros x f Q. destruct (i_hole0 x f Q) as [A (d & j & B & L)]. split; [auto|]. destruct (OW _ _ _ B) as (d0 & Q1). eauto. }
  assert (A5 : forall q, h = Some q -> In q (keys (ptrs s1)) -> In (WDrop q) wl).
  { intros q Q I. rewrite P1 in I. apply key_rem in I. destruct (i_hole3 q Q (proj1 I)) as [X|X]; [|exact X]. injection X as <-. tauto. }
  assert (A6 : forall q, In (WDrop q) wl -> In q (keys (ptrs s1)) /\
           (h = Some q \/ exists o f, q = Field o f /\ cnt (ptrs s1) o = 0)).
  { intros q I. destruct (i_wd0 q (or_intror I)) as [A B]. rewrite P1. split.
    - apply key_rem. split; [exact A|]. intros ->. contradiction.
    - destruct B as [B|(a & b & B & Z)]; [auto|]. right. exists a, b. split; [exact B|]. rewrite (CE a) in Z. lia. }
  assert (A7 : forall l1 x l2 f, wl = l1 ++ WFree x :: l2 -> In (Field x f) (keys (ptrs s1)) -> In (WDrop (Field x f)) l1).
  { intros l1 x l2 f Q I. rewrite P1 in I. apply key_rem in I. destruct I as [I D].
    pose proof (i_ord0 (WDrop p :: l1) x l2 f (cons_split _ _ _ _ _ Q) I) as [X|X]; [|exact X]. congruence. }
  assert (A8 : forall x, In (WFree x) wl <-> olookup x (objs s) <> None /\ cnt (ptrs s) x = 0).
  { intros x. rewrite <- i_dead0. cbn [In]. intuition congruence. }
  assert (B1 : NoDup (keys (ptrs s1))) by (apply nodup_rem; auto).
  assert (B2 : forall x, olookup x (objs s1) <> None -> x < next s1) by (intros x Q; apply i_next0; apply OL; exact Q).
  assert (B3 : forall x d j, olookup x (objs s1) = Some (d, j) -> d = Z.of_nat (cnt (ptrs s1) x)).
  { intros x d j. unfold s1. cbn [objs ptrs]. rewrite olookup_oset. destruct (Nat.eqb_spec x o) as [->|D].
    - rewrite EO. intros Q. injection Q as <- <-. lia.
    - intros Q. rewrite CX by auto. eapply i_cnt0; eauto. }
  destruct (Z.eqb_spec (c - 1) 0) as [Z|Z].
  - assert (Z1 : cnt (ptrs s1) o = 0) by (rewrite P1; lia).
    assert (NF : ~ In (WFree o) wl) by (rewrite A8; lia).
    assert (ND : forall f, ~ In (WDrop (Field o f)) wl).
    { intros f I. destruct (i_wd0 _ (or_intror I)) as [_ [B|(a & b & B & W)]].
      - specialize (HO f B). lia.
      - assert (a = o) by congruence. subst a. lia. }
    assert (FK : forall f, f < k -> In (Field o f) (keys (ptrs s1))).
    { intros f L. assert (C0 : 0 < cnt (ptrs s) o) by lia.
      destruct (i_fld4 o f c k EO C0 L) as [I|I]; [|specialize (HO f I); lia].
      rewrite P1. apply key_rem. split; [exact I|]. intros <-.
      destruct DP as [DP|(a & b & DP & W)]; [specialize (HO f DP); lia|]. assert (a = o) by congruence. subst a. lia. }
    constructor; auto.
    + intros x. rewrite in_app_iff. cbn [In]. rewrite OL. split.
      * intros [I|[I|I]].
        -- apply in_fields in I. destruct I as (f & I & _). discriminate.
        -- injection I as <-. split; [rewrite EO; discriminate|exact Z1].
        -- apply A8 in I. destruct I as [I1 I2]. split; [exact I1|]. rewrite P1, CX; [exact I2|]. intros ->. lia.
      * intros [I1 I2]. destruct (Nat.eq_dec x o) as [->|D]; [auto|]. right. right. apply A8. split; [exact I1|].
        rewrite <- CX by auto. exact I2.
    + intros q Q I. apply in_app_iff. right. right. auto.
    + intros q I. apply in_app_iff in I. destruct I as [I|[I|I]]; [|discriminate|auto].
      apply in_fields in I. destruct I as (f & Q & L). injection Q as ->. split; [auto|]. right. eauto.
    + apply nodup_app; [apply nodup_fields|constructor; auto|]. intros w I. apply in_fields in I. destruct I as (f & -> & _).
      intros [Q|Q]; [discriminate|]. apply (ND f Q).
    + intros l1 x l2 f Q I.
      (* where is WFree x *)
      assert (SP : (exists m, l1 = fields o k ++ WFree o :: m /\ wl = m ++ WFree x :: l2) \/ (l1 = fields o k /\ x = o)).
      { assert (FN : forall w, In w (fields o k) -> w <> WFree x) by (intros w J; apply in_fields in J; destruct J as (g & -> & _); discriminate).
        clear - Q FN. revert l1 Q FN. generalize (fields o k) as F. induction F as [|w F IH]; intros l1 Q FN; cbn [app] in *.
        - destruct l1 as [|y l1]; cbn [app] in Q; injection Q as Q1 Q2.
          + right. split; congruence.
          + left. exists l1. subst. auto.
        - destruct l1 as [|y l1]; cbn [app] in Q; injection Q as Q1 Q2.
          + exfalso. apply (FN w); [left; reflexivity|exact Q1].
          + subst y. destruct (IH l1 Q2) as [(m & A & B)|[A B]].
            * intros y J. apply FN. right. exact J.
            * left. exists m. subst l1. auto.
            * right. subst l1. auto. }
      destruct SP as [(m & -> & Q1)|[-> ->]].
      * apply in_app_iff. right. right. eapply A7; eauto.
      * destruct (A2 o f I) as (d & j & Q1 & L). destruct (OV _ _ _ Q1) as (d0 & Q2). rewrite EO in Q2. injection Q2 as _ <-.
        apply in_fields. eauto.
  - constructor; auto. intros x. rewrite A8, OL. destruct (Nat.eq_dec x o) as [->|D]; [|rewrite P1, CX by auto; tauto].
    rewrite P1. lia.
Qed.

Lemma nodup_tail_free : forall o wl, NoDup (WFree o :: wl) -> ~ In (WFree o) wl.
Proof. intros o wl N. inversion N; auto. Qed.

(* An object whose fields are gone is freed. *)
Lemma inv_free : forall h s o wl, Inv h s (WFree o :: wl) ->
  olookup o (objs s) <> None /\ Inv h (mkS (ptrs s) (orem o (objs s)) (next s)) wl.
Proof.
  intros h s o wl []. destruct (proj1 (i_dead0 o) (or_introl eq_refl)) as [LV Z].
  pose proof (nodup_tail_free _ _ i_ndw0) as NI. split; [exact LV|].
  assert (NF : forall f, ~ In (Field o f) (keys (ptrs s))) by (intros f I; apply (i_ord0 [] o wl f eq_refl I)).
  assert (NH : forall x, heldx h s x -> x <> o) by (intros x H ->; apply heldx_cnt in H; lia).
  assert (HX : forall x, heldx h s x -> heldx h (mkS (ptrs s) (orem o (objs s)) (next s)) x).
  { intros x H. induction H; [eapply hx_root|eapply hx_field]; eauto. }
  constructor; cbn [ptrs objs next]; auto.
  - intros x. rewrite olookup_orem. destruct (Nat.eqb x o); [congruence|auto].
  - intros x c k. rewrite olookup_orem. destruct (Nat.eqb x o); [discriminate|eauto].
  - intros p x I. rewrite olookup_orem. destruct (Nat.eqb_spec x o) as [->|D]; [|eauto].
    assert (0 < cnt (ptrs s) o) by (apply cnt_pos; eauto). lia.
  - intros x. rewrite olookup_orem. destruct (Nat.eqb_spec x o) as [->|D].
    + split; [contradiction|tauto].
    + rewrite <- i_dead0. cbn [In]. intuition congruence.
  - intros x f I. destruct (i_fld3 x f I) as (c & k & Q & L). exists c, k. split; [|exact L].
    rewrite olookup_orem. destruct (Nat.eqb_spec x o) as [->|D]; [destruct (NF f I)|exact Q].
  - intros x f c k. rewrite olookup_orem. destruct (Nat.eqb x o); [discriminate|eauto].
  - intros x f Q. destruct (i_hole0 x f Q) as [A (c & k & B & L)]. split; [auto|]. exists c, k. split; [|exact L].
    rewrite olookup_orem. destruct (Nat.eqb_spec x o) as [->|D]; [destruct (NH o A eq_refl)|exact B].
  - intros p Q I. destruct (i_hole3 p Q I) as [X|X]; [discriminate|exact X].
  - intros p I. apply (i_wd0 p (or_intror I)).
  - inversion i_ndw0; auto.
  - intros l1 x l2 f Q I. pose proof (i_ord0 (WFree o :: l1) x l2 f (cons_split _ _ _ _ _ Q) I) as [X|X]; [discriminate|exact X].
Qed.

(* What draining keeps. *)
Record Keeps (h : option place) (s s1 : state) : Prop := {
  k_next : next s1 = next s;
  k_sub : forall e, In e (ptrs s1) -> In e (ptrs s);
  k_len : length (ptrs s1) <= length (ptrs s);
  k_root : forall p v, In (p, v) (ptrs s) -> h <> Some p -> is_field p = false -> In (p, v) (ptrs s1);
  k_field : forall o f v, In (Field o f, v) (ptrs s) -> h <> Some (Field o f) -> heldx h s o -> In (Field o f, v) (ptrs s1);
  k_held : forall x, heldx h s x -> heldx h s1 x;
  k_objs : forall o c k, olookup o (objs s1) = Some (c, k) -> exists d, olookup o (objs s) = Some (d, k)
}.

Lemma keeps_refl : forall h s, Keeps h s s.
Proof. constructor; eauto. Qed.

Lemma keeps_trans : forall h a b c, Keeps h a b -> Keeps h b c -> Keeps h a c.
Proof.
  intros h a b c [] []. constructor; auto; try congruence; [lia|].
  intros o x k Q. destruct (k_objs1 _ _ _ Q) as (d & Q1). eauto.
Qed.

Lemma keeps_rem : forall h s p w wl ob, Inv h s (w :: wl) -> w = WDrop p ->
  (forall o c k, olookup o ob = Some (c, k) -> exists d, olookup o (objs s) = Some (d, k)) ->
  Keeps h s (mkS (rem p (ptrs s)) ob (next s)).
Proof.
  intros h s p w wl ob [] -> HO. destruct (i_wd0 p (or_introl eq_refl)) as [IN DP].
  constructor; cbn [ptrs objs next]; auto.
  - intros e I. apply in_rem in I. tauto.
  - unfold rem. clear. induction (ptrs s) as [|e l IH]; cbn [filter length]; [lia|]. destruct (place_dec (fst e) p); cbn [length]; lia.
  - intros q v I D F. apply in_rem. split; [exact I|]. cbn [fst]. intros ->.
    destruct DP as [DP|(a & b & -> & _)]; [congruence|discriminate].
  - intros o f v I D H. apply in_rem. split; [exact I|]. cbn [fst]. intros Q.
    destruct DP as [DP|(a & b & P & Z)]; [congruence|]. apply heldx_cnt in H. assert (a = o) by congruence. subst a. lia.
  - eapply (heldx_rem h s _ p); eauto.
Qed.

(* No counter wraps. *)
Definition fits (s : state) : Prop := forall o, (Z.of_nat (cnt (ptrs s) o) < 4294967296)%Z.

Lemma fits_len : forall s, (Z.of_nat (length (ptrs s)) < 4294967296)%Z -> fits s.
Proof. intros s L o. pose proof (cnt_len (ptrs s) o). lia. Qed.

Lemma cnt_filter : forall f l o, cnt (filter f l) o <= cnt l o.
Proof.
  intros f l o. unfold cnt. induction l as [|e l IH]; cbn [filter]; [lia|].
  destruct (f e); cbn [filter]; destruct (targets o (snd e)); cbn [length]; lia.
Qed.

Lemma fits_rem : forall s p ob n, fits s -> fits (mkS (rem p (ptrs s)) ob n).
Proof. intros s p ob n F o. cbn [ptrs]. unfold rem. pose proof (cnt_filter (fun e => if place_dec (fst e) p then false else true) (ptrs s) o). specialize (F o). lia. Qed.

Lemma drain_ok : forall fuel h s wl, Inv h s wl -> fits s ->
  length (ptrs s) + length (objs s) <= fuel ->
  exists s1, drain fuel s wl = Ok s1 /\ Inv h s1 [] /\ Keeps h s s1.
Proof.
  induction fuel as [|n IH]; intros h s wl H SM LE.
  - destruct wl as [|[p|o] wl].
    + exists s. split; [reflexivity|]. split; [exact H|apply keeps_refl].
    + exfalso. destruct H. destruct (i_wd0 p (or_introl eq_refl)) as [I _]. destruct (ptrs s); [destruct I|cbn in LE; lia].
    + exfalso. destruct H. destruct (proj1 (i_dead0 o) (or_introl eq_refl)) as [I _]. destruct (objs s); [destruct I; reflexivity|cbn in LE; lia].
  - destruct wl as [|[p|o] wl]; cbn [drain].
    + exists s. split; [reflexivity|]. split; [exact H|apply keeps_refl].
    + pose proof H as []. destruct (i_wd0 p (or_introl eq_refl)) as [I _]. apply lookup_key in I. destruct I as (v & E). rewrite E.
      destruct v as [o|].
      * destruct (olookup o (objs s)) as [[c k]|] eqn:EO; [|destruct (i_tgt0 p o (lookup_in _ _ _ E) EO)].
        destruct (inv_drop _ _ _ _ _ _ _ H (SM o) E EO) as (W & HC & P & H1). cbn zeta in H1. rewrite W.
        destruct (cnt_rem _ _ _ 0 i_nd0 E) as [_ LN].
        assert (KP : Keeps h s (mkS (rem p (ptrs s)) (oset o ((c - 1)%Z, k) (objs s)) (next s))).
        { eapply keeps_rem; eauto. intros x d j. rewrite olookup_oset. destruct (Nat.eqb_spec x o) as [->|]; [|eauto].
          rewrite EO. intros Q. injection Q as <- <-. eauto. }
        destruct (Z.eqb (c - 1) 0).
        -- destruct (IH _ _ _ H1) as (s1 & E1 & A & B); [apply fits_rem; exact SM|cbn [ptrs objs]; rewrite oset_len; lia|].
           exists s1. split; [exact E1|]. split; [exact A|]. eapply keeps_trans; eauto.
        -- destruct (IH _ _ _ H1) as (s1 & E1 & A & B); [apply fits_rem; exact SM|cbn [ptrs objs]; rewrite oset_len; lia|].
           exists s1. split; [exact E1|]. split; [exact A|]. eapply keeps_trans; eauto.
      * pose proof (inv_drop_null _ _ _ _ H E) as H1. destruct (cnt_rem _ _ _ 0 i_nd0 E) as [_ LN].
        destruct (IH _ _ _ H1) as (s1 & E1 & A & B); [apply fits_rem; exact SM|cbn [ptrs objs]; lia|].
        exists s1. split; [exact E1|]. split; [exact A|]. eapply keeps_trans; [|exact B]. eapply keeps_rem; eauto.
    + destruct (inv_free _ _ _ _ H) as [LV H1]. pose proof (orem_len _ _ LV) as LN.
      destruct (olookup o (objs s)) eqn:EO; [|congruence].
      destruct (IH _ _ _ H1) as (s1 & E1 & A & B); [exact SM|cbn [ptrs objs]; lia|].
      exists s1. split; [exact E1|]. split; [exact A|]. eapply keeps_trans; [|exact B].
      constructor; cbn [ptrs objs next]; auto.
      * intros x HX. induction HX; [eapply hx_root|eapply hx_field]; eauto.
      * intros x d j. rewrite olookup_orem. destruct (Nat.eqb x o); [discriminate|eauto].
Qed.

(* Starting to drop a pointer the program can name (or the temporary). *)
Definition droppable (s : state) (p : place) : Prop :=
  In p (keys (ptrs s)) /\ match p with Field o _ => held s o | _ => True end.

Lemma inv_begin : forall s p, Inv None s [] -> droppable s p -> Inv (Some p) s [WDrop p].
Proof.
  intros s p [] [I D]. constructor; auto.
  - intros o. rewrite <- i_dead0. cbn [In]. intuition discriminate.
  - intros o f c k A B C. destruct (i_fld4 o f c k A B C) as [Q|Q]; [auto|discriminate].
  - intros o f Q. injection Q as ->. split; [apply held_self; exact D|]. apply i_fld3. exact I.
  - intros q Q _. injection Q as <-. left. reflexivity.
  - intros q [Q|[]]. injection Q as <-. auto.
  - constructor; [intros []|constructor].
  - intros l1 o l2 f Q. destruct l1 as [|w [|y l1]]; cbn [app] in Q; discriminate.
Qed.

Lemma drop_ok : forall s p, Inv None s [] -> droppable s p -> fits s ->
  exists s1, drop s p = Ok s1 /\ Inv (Some p) s1 [] /\ Keeps (Some p) s s1 /\ ~ In p (keys (ptrs s1)).
Proof.
  intros s p H D SM. unfold drop. destruct (drain_ok (fuel_of s) _ _ _ (inv_begin _ _ H D) SM (Nat.le_refl _)) as (s1 & E & A & B).
  exists s1. split; [exact E|]. split; [exact A|]. split; [exact B|]. intros I. destruct A. apply (i_hole3 p eq_refl I).
Qed.

Lemma inv_close : forall h s, Inv h s [] -> match h with Some p => is_field p = false | None => True end -> Inv None s [].
Proof.
  intros h s [] F. constructor; auto; try discriminate.
  - intros o f c k A B C. destruct (i_fld4 o f c k A B C) as [Q|Q]; [auto|]. subst h. discriminate.
  - intros p [].
Qed.

(* Constructing a pointer, or giving the hole its new value. *)
Lemma put_ok : forall h s p v, Inv h s [] -> ~ In p (keys (ptrs s)) ->
  match h with Some q => q = p \/ is_field q = false | None => True end ->
  (is_field p = true -> h = Some p) ->
  match v with Some o => olookup o (objs s) <> None | None => True end ->
  match v with Some o => (Z.of_nat (cnt (ptrs s) o) + 1 < 4294967296)%Z | None => True end ->
  exists ob, put s p v = Ok (mkS ((p, v) :: ptrs s) ob (next s)) /\
             Inv None (mkS ((p, v) :: ptrs s) ob (next s)) [] /\
             (forall x d j, olookup x ob = Some (d, j) -> exists e, olookup x (objs s) = Some (e, j)).
Proof.
  intros h s p v H NI HH HF LV SM. pose proof H as [].
  assert (G : exists ob, put s p v = Ok (mkS ((p, v) :: ptrs s) ob (next s)) /\
    (forall x d j, olookup x ob = Some (d, j) -> d = Z.of_nat (cnt ((p, v) :: ptrs s) x) /\ exists d0, olookup x (objs s) = Some (d0, j)) /\
    (forall x d j, olookup x (objs s) = Some (d, j) -> exists d0, olookup x ob = Some (d0, j)) /\
    (forall x, olookup x ob <> None <-> olookup x (objs s) <> None)).
  { destruct v as [o|]; cbn [put].
    - destruct (olookup o (objs s)) as [[c k]|] eqn:EO; [|congruence].
      eexists. split; [reflexivity|]. pose proof (i_cnt0 o c k EO) as HC.
      assert (X : wrap (c + 1) = (c + 1)%Z) by (apply wrap_small; lia). rewrite X.
      split; [|split].
      + intros x d j. rewrite olookup_oset. unfold cnt. cbn [filter snd targets].
        destruct (Nat.eqb_spec x o) as [->|D].
        * rewrite EO, Nat.eqb_refl. intros Q. injection Q as <- <-. cbn [length]. fold (cnt (ptrs s) o). split; [lia|eauto].
        * intros Q. destruct (Nat.eqb_spec o x); [congruence|]. split; [eapply i_cnt0; eauto|eauto].
      + intros x d j Q. rewrite olookup_oset. destruct (Nat.eqb_spec x o) as [->|D]; [|eauto]. rewrite EO in *. injection Q as <- <-. eauto.
      + intros x. rewrite olookup_oset. destruct (Nat.eqb_spec x o) as [->|D]; [rewrite EO; split; discriminate|tauto].
    - exists (objs s). split; [reflexivity|]. split; [|split].
      + intros x d j Q. unfold cnt. cbn [filter snd targets]. split; [eapply i_cnt0; eauto|eauto].
      + eauto.
      + tauto. }
  destruct G as (ob & E & G1 & G2 & G3). exists ob. split; [exact E|]. split; [|intros x d j Q; apply (G1 _ _ _ Q)].
  assert (CG : forall x, cnt (ptrs s) x <= cnt ((p, v) :: ptrs s) x).
  { intros x. unfold cnt. cbn [filter]. destruct (targets x (snd (p, v))); cbn [length]; lia. }
  assert (PZ : forall x, olookup x (objs s) <> None -> 0 < cnt (ptrs s) x).
  { intros x Q. destruct (cnt (ptrs s) x) eqn:Z; [|lia]. destruct (proj2 (i_dead0 x) (conj Q Z)). }
  constructor; cbn [ptrs objs next]; auto; try discriminate.
  - cbn [map fst]. constructor; auto.
  - intros x Q. apply G3 in Q. auto.
  - intros x c k Q. destruct (G1 _ _ _ Q). auto.
  - intros q x [Q|Q]; [injection Q as -> ->; apply G3; exact LV|]. apply G3. eauto.
  - intros x. split; [intros []|]. intros [A B]. apply G3 in A. specialize (PZ x A). specialize (CG x). lia.
  - intros x f. cbn [map fst]. intros [Q|Q].
    + destruct (i_hole0 x f) as [_ (c & k & A & L)]; [rewrite <- Q; apply HF; rewrite Q; reflexivity|].
      destruct (G2 _ _ _ A) as (d & A1). eauto.
    + destruct (i_fld3 x f Q) as (c & k & A & L). destruct (G2 _ _ _ A) as (d & A1). eauto.
  - intros x f c k Q C L. left. cbn [map fst In]. destruct (G1 _ _ _ Q) as [_ (d0 & Q1)].
    assert (C0 : 0 < cnt (ptrs s) x) by (apply PZ; rewrite Q1; discriminate).
    destruct (i_fld4 x f d0 k Q1 C0 L) as [I|I]; [auto|]. left. rewrite I in HH. destruct HH as [A|A]; [auto|discriminate].
  - intros q [].
  - intros l1 x l2 f Q. destruct l1; discriminate.
Qed.

Lemma held_put : forall s p v ob x, held s x -> held (mkS ((p, v) :: ptrs s) ob (next s)) x.
Proof. intros s p v ob x H. induction H; [eapply held_root|eapply held_field]; cbn [ptrs]; eauto; right; eauto. Qed.

Lemma named_drop : forall s p, named s p -> droppable s p.
Proof. intros s [x|o f|] H; cbn in H; split; tauto. Qed.

Lemma inv_start : Inv None start [].
Proof.
  constructor; unfold start; cbn; try discriminate; try tauto; try constructor.
  all: intros l1 o l2 f Q; destruct l1; discriminate.
Qed.

Lemma put_cases : forall s p v s1, put s p v = Ok s1 -> ptrs s1 = (p, v) :: ptrs s.
Proof.
  intros s p v s1 E. unfold put in E. destruct v as [o|]; [|injection E as <-; reflexivity].
  destruct (olookup o (objs s)) as [[c k]|]; [|discriminate]. injection E as <-. reflexivity.
Qed.

(* Assignment from a value other than the one p has. *)
Lemma replace_ok : forall s p v, Inv None s [] -> droppable s p -> (Z.of_nat (length (ptrs s)) + 1 < 4294967296)%Z ->
  match v with Some o => exists q, In (q, Some o) (ptrs s) /\ is_field q = false /\ q <> p | None => True end ->
  exists s2 s3, drop s p = Ok s2 /\ put s2 p v = Ok s3 /\ Inv None s3 [] /\ next s3 = next s /\
    Keeps (Some p) s s2 /\ ~ In p (keys (ptrs s2)) /\ ptrs s3 = (p, v) :: ptrs s2 /\
    (forall o c k, olookup o (objs s3) = Some (c, k) -> exists d, olookup o (objs s) = Some (d, k)).
Proof.
  intros s p v H D SM LV.
  destruct (drop_ok s p H D ltac:(apply fits_len; lia)) as (s2 & E2 & H2 & K2 & N2). pose proof K2 as [].
  assert (L2 : match v with Some o => olookup o (objs s2) <> None | None => True end).
  { destruct v as [o|]; [|exact I]. destruct LV as (q & I & F & Q). destruct H2.
    apply (i_tgt0 q o). apply k_root0; auto. congruence. }
  destruct (put_ok (Some p) s2 p v H2 N2 ltac:(left; reflexivity) ltac:(auto) L2 ltac:(destruct v as [o|]; [pose proof (cnt_len (ptrs s2) o); lia|exact I])) as (ob & E3 & H3 & O3).
  exists s2. eexists. split; [exact E2|]. split; [exact E3|]. split; [exact H3|]. split; [cbn [next]; auto|].
  split; [exact K2|]. split; [exact N2|]. split; [reflexivity|]. intros o c k Q. cbn [objs] in Q.
  destruct (O3 _ _ _ Q) as (d & Q1). eauto.
Qed.

(* What a step of a program does, in terms of pointers: [written] gets the value
   v (None: it is gone); all other pointers stay but for those in objects that
   are destroyed. *)
Record After (s s1 : state) (written : place) (v : option (option nat)) : Prop := {
  a_inv : Inv None s1 [];
  a_var : forall q w, In (q, w) (ptrs s) -> q <> written -> is_field q = false -> In (q, w) (ptrs s1);
  a_old : forall q w, In (q, w) (ptrs s1) -> q <> written -> In (q, w) (ptrs s);
  a_new : match v with Some w => In (written, w) (ptrs s1) | None => ~ In written (keys (ptrs s1)) end;
  a_objs : forall o c k, olookup o (objs s1) = Some (c, k) -> exists d, olookup o (objs s) = Some (d, k);
  a_next : next s1 = next s
}.

Lemma live_pos : forall s o, Inv None s [] -> olookup o (objs s) <> None -> 0 < cnt (ptrs s) o.
Proof. intros s o [] Q. destruct (cnt (ptrs s) o) eqn:Z; [|lia]. destruct (proj2 (i_dead0 o) (conj Q Z)). Qed.

Lemma a_fld : forall s s1 p v, Inv None s [] -> After s s1 p v -> forall o f w,
  In (Field o f, w) (ptrs s) -> Field o f <> p -> olookup o (objs s1) <> None -> In (Field o f, w) (ptrs s1).
Proof.
  intros s s1 p v H [] o f w I D LV. pose proof (live_pos _ _ a_inv0 LV) as PZ.
  destruct (olookup o (objs s1)) as [[c k]|] eqn:E; [|congruence]. destruct (a_objs0 _ _ _ E) as (d & E0).
  destruct (i_fld1 _ _ _ H o f) as (c0 & k0 & Q & L); [apply (in_map fst) in I; exact I|].
  rewrite E0 in Q. injection Q as <- <-.
  destruct (i_fld2 _ _ _ a_inv0 o f c k E PZ L) as [X|X]; [|discriminate].
  apply lookup_key in X. destruct X as (w1 & X). apply lookup_in in X. pose proof (a_old0 _ _ X D) as Y.
  assert (w1 = w); [|subst; exact X].
  pose proof (in_lookup _ _ _ (i_nd _ _ _ H) I) as Z1. pose proof (in_lookup _ _ _ (i_nd _ _ _ H) Y) as Z2. congruence.
Qed.

(* No temporary outlives a step. *)
Definition no_tmp (s : state) : Prop := ~ In Tmp (keys (ptrs s)).

Lemma key_in : forall (l : list (place * option nat)) p v, In (p, v) l -> In p (keys l).
Proof. intros l p v I. apply (in_map fst) in I. exact I. Qed.

Lemma droppable_root : forall s p v, In (p, v) (ptrs s) -> is_field p = false -> droppable s p.
Proof. intros s p v I F. split; [eapply key_in; eauto|]. destruct p; [exact Logic.I|discriminate|exact Logic.I]. Qed.

Lemma assign_ok : forall s p q v, Inv None s [] -> no_tmp s -> small s -> named s p -> lookup q (ptrs s) = Some v -> q <> Tmp ->
  exists s1, assign s p q = Ok s1 /\ After s s1 p (Some v) /\ no_tmp s1.
Proof.
  intros s p q v H NT SM NP EQ NQ. unfold assign. rewrite EQ. unfold small in SM.
  assert (PT : p <> Tmp) by (intros ->; exact NP).
  assert (LV : match v with Some o => olookup o (objs s) <> None | None => True end).
  { destruct v as [o|]; [|exact I]. apply lookup_in in EQ. eapply i_tgt; eauto. }
  destruct (put_ok None s Tmp v H NT I ltac:(discriminate) LV ltac:(destruct v as [o|]; [pose proof (cnt_len (ptrs s) o); lia|exact I])) as (ob & E1 & H1 & O1).
  rewrite E1. cbn [bind ptrs]. set (s1 := mkS ((Tmp, v) :: ptrs s) ob (next s)) in *.
  destruct (named_drop _ _ NP) as [KP DP]. apply lookup_key in KP. destruct KP as (w & EP).
  assert (EP1 : lookup p ((Tmp, v) :: ptrs s) = Some w).
  { unfold lookup. cbn [find fst]. destruct (place_dec Tmp p); [congruence|exact EP]. }
  rewrite EP1.
  (* the state before the temporary goes *)
  assert (MID : exists s3, (if match w, v with Some a, Some b => Nat.eqb a b | None, None => true | _, _ => false end
                            then Ok s1 else bind (drop s1 p) (fun s2 => put s2 p v)) = Ok s3 /\
            Inv None s3 [] /\ In (Tmp, v) (ptrs s3) /\ In (p, v) (ptrs s3) /\ length (ptrs s3) <= length (ptrs s) + 1 /\
            (forall x y, In (x, y) (ptrs s) -> x <> p -> is_field x = false -> In (x, y) (ptrs s3)) /\
            (forall o f y, In (Field o f, y) (ptrs s) -> Field o f <> p -> heldx (Some p) s o -> In (Field o f, y) (ptrs s3)) /\
            (forall x y, In (x, y) (ptrs s3) -> x <> p -> x <> Tmp -> In (x, y) (ptrs s)) /\
            (forall o c k, olookup o (objs s3) = Some (c, k) -> exists d, olookup o (objs s) = Some (d, k)) /\ next s3 = next s).
  { destruct (match w, v with Some a, Some b => Nat.eqb a b | None, None => true | _, _ => false end) eqn:B.
    - assert (w = v) by (destruct w as [a|], v as [b|]; try discriminate; [apply Nat.eqb_eq in B; congruence|reflexivity]). subst w.
      exists s1. split; [reflexivity|]. split; [exact H1|]. unfold s1. cbn [ptrs objs next length]. split; [left; reflexivity|].
      split; [right; apply lookup_in; exact EP|]. split; [lia|]. split; [right; auto|]. split; [right; auto|].
      split; [|split; [auto|reflexivity]].
      intros x y [Q|Q] _ X; [congruence|exact Q].
    - assert (D1 : droppable s1 p).
      { split; [right; eapply key_in; apply lookup_in; exact EP|]. destruct p; auto. apply held_put. exact DP. }
      destruct (replace_ok s1 p v H1 D1) as (s2 & s3 & E2 & E3 & H3 & X3 & K2 & N2 & P3 & O3).
      { unfold s1. cbn [ptrs length]. lia. }
      { destruct v as [o|]; [|exact I]. exists Tmp. split; [left; reflexivity|]. split; [reflexivity|congruence]. }
      exists s3. rewrite E2. cbn [bind]. split; [exact E3|]. split; [exact H3|]. destruct K2. rewrite P3.
      split; [right; apply k_root0; [left; reflexivity|congruence|reflexivity]|]. split; [left; reflexivity|].
      split.
      { cbn [length]. assert (L1 : length (ptrs s2) < length (ptrs s1)); [|unfold s1 in L1; cbn [ptrs length] in L1; lia].
        apply (Nat.lt_le_trans _ (length (p :: keys (ptrs s2)))); [cbn [length]; rewrite map_length; lia|].
        rewrite <- (map_length fst (ptrs s1)). apply NoDup_incl_length.
        - constructor; [exact N2|]. (* keys of s2 *)
          assert (NoDup (keys (ptrs s3))) by apply H3. rewrite P3 in H0. cbn [map fst] in H0. inversion H0; auto.
        - intros x [<-|X]; [apply D1|]. apply in_map_iff in X. destruct X as (e & <- & X). apply in_map. apply k_sub0. exact X. }
      split; [|split; [|split; [|split]]].
      + intros x y I1 D F. right. apply k_root0; [right; exact I1|congruence|exact F].
      + intros o f y I1 D X. right. apply k_field0; [right; exact I1|congruence|].
        clear - X PT. induction X; [eapply hx_root|eapply hx_field]; unfold s1; cbn [ptrs]; eauto; right; eauto.
      + intros x y [Q|Q] D F; [congruence|]. apply k_sub0 in Q. destruct Q as [Q|Q]; [congruence|exact Q].
      + intros o c k Q. destruct (O3 _ _ _ Q) as (d & Q1). apply (O1 _ _ _ Q1).
      + rewrite X3. reflexivity. }
  destruct MID as (s3 & E3 & H3 & T3 & P3 & L3 & V3 & F3 & B3 & O3 & X3). rewrite E3. cbn [bind].
  destruct (drop_ok s3 Tmp H3 (droppable_root _ _ _ T3 eq_refl) ltac:(apply fits_len; lia)) as (s4 & E4 & H4 & K4 & N4).
  pose proof (inv_close _ _ H4 eq_refl) as H5.
  exists s4. split; [exact E4|]. split; [|exact N4].
  pose proof K4 as [].
  constructor; auto.
  - intros x y I1 D F. apply k_root0; auto. intros Q. injection Q as <-. apply NT. eapply key_in; eauto.
  - intros x y I1 D. apply B3; auto. intros ->. apply N4. eapply key_in; eauto.
  - destruct p as [x|o f|]; [apply k_root0; auto; congruence| |congruence].
    apply k_field0; auto; [congruence|].
    (* o is held without the temporary *)
    pose proof (held_self s o f DP) as X. clear - X NT V3 F3. induction X as [q x F N J|x g x1 X IH N J].
    + apply (hx_root _ s3 q); auto; [|apply V3; auto; congruence]. intros Q. injection Q as <-. apply NT. eapply key_in; eauto.
    + apply (hx_field _ s3 x g); auto; [congruence|]. apply F3; auto. congruence.
  - intros o c k Q. destruct (k_objs0 _ _ _ Q) as (d & Q1). eauto.
  - congruence.
Qed.

Lemma assign_null_ok : forall s p, Inv None s [] -> no_tmp s -> small s -> named s p ->
  exists s1, step s (OAssignNull p) = Ok s1 /\ After s s1 p (Some None) /\ no_tmp s1.
Proof.
  intros s p H NT SM NP. cbn [step]. unfold small in SM. pose proof (named_drop _ _ NP) as D.
  destruct (proj1 (lookup_key _ _) (proj1 D)) as (w & EP). rewrite EP.
  destruct (replace_ok s p None H D ltac:(lia) I) as (s2 & s3 & E2 & E3 & H3 & X3 & K2 & N2 & P3 & O3).
  rewrite E2. cbn [bind]. exists s3. split; [exact E3|]. destruct K2.
  assert (PT : p <> Tmp) by (intros ->; exact NP).
  split.
  - constructor; auto.
    + intros q y I1 Q F. rewrite P3. right. apply k_root0; auto. congruence.
    + intros q y I1 Q. rewrite P3 in I1. destruct I1 as [I1|I1]; [congruence|]. auto.
    + rewrite P3. left. reflexivity.
  - unfold no_tmp. rewrite P3. cbn [map fst]. intros [Q|Q]; [congruence|]. apply NT.
    apply in_map_iff in Q. destruct Q as (e & Q & I1). apply in_map_iff. eauto.
Qed.

Lemma drop_var_ok : forall s x, Inv None s [] -> no_tmp s -> small s -> named s (Var x) ->
  exists s1, step s (ODrop x) = Ok s1 /\ After s s1 (Var x) None /\ no_tmp s1.
Proof.
  intros s x H NT SM NP. cbn [step]. unfold small in SM. pose proof (named_drop _ _ NP) as D.
  destruct (proj1 (lookup_key _ _) (proj1 D)) as (w & EP). rewrite EP.
  destruct (drop_ok s _ H D ltac:(apply fits_len; lia)) as (s2 & E2 & H2 & K2 & N2). exists s2. split; [exact E2|]. destruct K2. split.
  - constructor; auto.
    + eapply inv_close; [exact H2|reflexivity].
    + intros q y I1 Q F. apply k_root0; auto. congruence.
  - intros Q. apply NT. apply in_map_iff in Q. destruct Q as (e & Q & I1). apply in_map_iff. eauto.
Qed.

Lemma make_ok : forall s x v, Inv None s [] -> no_tmp s -> small s -> fresh s x ->
  match v with Some o => olookup o (objs s) <> None | None => True end ->
  exists s1, put s (Var x) v = Ok s1 /\ After s s1 (Var x) (Some v) /\ no_tmp s1.
Proof.
  intros s x v H NT SM FR LV. unfold small in SM.
  destruct (put_ok None s (Var x) v H FR I ltac:(discriminate) LV ltac:(destruct v as [o|]; [pose proof (cnt_len (ptrs s) o); lia|exact I])) as (ob & E1 & H1 & O1).
  eexists. split; [exact E1|]. split.
  - constructor; cbn [ptrs objs next]; auto.
    + right. auto.
    + intros q w [Q|Q] D; [congruence|exact Q].
    + left. reflexivity.
  - unfold no_tmp. cbn [ptrs map fst]. intros [Q|Q]; [discriminate|auto].
Qed.

Lemma cnt_app : forall a b o, cnt (a ++ b) o = cnt a o + cnt b o.
Proof. intros. unfold cnt. rewrite filter_app, app_length. reflexivity. Qed.

(* A new object with its fields. *)
Lemma new_ok : forall s x k, Inv None s [] -> no_tmp s -> fresh s x ->
  exists s1, step s (ONew x k) = Ok s1 /\ Inv None s1 [] /\ no_tmp s1 /\
    ptrs s1 = (Var x, Some (next s)) :: map (fun f => (Field (next s) f, None)) (seq 0 k) ++ ptrs s /\
    objs s1 = (next s, (1%Z, k)) :: objs s /\ next s1 = S (next s).
Proof.
  intros s x k H NT FR. cbn [step]. apply lookup_none in FR. rewrite FR. apply lookup_none in FR.
  eexists. split; [reflexivity|]. cbn [ptrs objs next].
  set (F := map (fun f => (Field (next s) f, @None nat)) (seq 0 k)).
  pose proof H as [].
  assert (NL : olookup (next s) (objs s) = None).
  { destruct (olookup (next s) (objs s)) eqn:E; [|reflexivity]. assert (next s < next s) by (apply i_next0; congruence). lia. }
  assert (IF : forall p v, In (p, v) F <-> exists f, p = Field (next s) f /\ v = None /\ f < k).
  { intros p v. unfold F. rewrite in_map_iff. split.
    - intros (f & Q & J). apply in_seq in J. injection Q as <- <-. exists f. repeat split. lia.
    - intros (f & -> & -> & J). exists f. split; [reflexivity|]. apply in_seq. lia. }
  assert (KF : forall p, In p (keys F) <-> exists f, p = Field (next s) f /\ f < k).
  { intros p. unfold F. rewrite map_map. cbn [fst]. rewrite in_map_iff. split.
    - intros (f & <- & J). apply in_seq in J. exists f. split; [reflexivity|lia].
    - intros (f & -> & J). exists f. split; [reflexivity|]. apply in_seq. lia. }
  assert (NK : forall f, ~ In (Field (next s) f) (keys (ptrs s))).
  { intros f J. destruct (i_fld3 _ _ J) as (c & j & Q & _). congruence. }
  assert (CF : forall o, cnt F o = 0).
  { intros o. destruct (cnt F o) eqn:E; [reflexivity|]. assert (P : 0 < cnt F o) by lia. apply cnt_pos in P.
    destruct P as (p & P). apply IF in P. destruct P as (f & _ & Q & _). discriminate. }
  assert (CN : cnt (ptrs s) (next s) = 0).
  { destruct (cnt (ptrs s) (next s)) eqn:E; [reflexivity|]. assert (P : 0 < cnt (ptrs s) (next s)) by lia. apply cnt_pos in P.
    destruct P as (p & P). apply i_tgt0 in P. congruence. }
  assert (CC : forall o, cnt ((Var x, Some (next s)) :: F ++ ptrs s) o = (if Nat.eqb (next s) o then 1 else 0) + cnt (ptrs s) o).
  { intros o. change ((Var x, Some (next s)) :: F ++ ptrs s) with ([(Var x, Some (next s))] ++ F ++ ptrs s).
    rewrite !cnt_app, CF. unfold cnt at 1. cbn [filter snd targets]. destruct (Nat.eqb (next s) o); reflexivity. }
  assert (OL : forall o, olookup o ((next s, (1%Z, k)) :: objs s) = if Nat.eqb (next s) o then Some (1%Z, k) else olookup o (objs s)).
  { intros o. unfold olookup. cbn [find fst]. destruct (Nat.eqb (next s) o); reflexivity. }
  split; [|split; [|auto]].
  - constructor; cbn [ptrs objs next]; auto; try discriminate.
    + cbn [map fst]. rewrite map_app. constructor.
      * rewrite in_app_iff. intros [J|J]; [apply KF in J; destruct J as (f & Q & _); discriminate|contradiction].
      * assert (ND : NoDup (keys F)).
        { unfold F. rewrite map_map. cbn [fst]. apply Injective_map_NoDup; [|apply seq_NoDup]. intros a b Q. congruence. }
        apply nodup_app; auto. intros p J. apply KF in J. destruct J as (f & -> & _). apply NK.
    + intros o. rewrite OL. destruct (Nat.eqb_spec (next s) o) as [<-|D]; [lia|]. intros Q. specialize (i_next0 o Q). lia.
    + intros o c j. rewrite OL, CC. destruct (Nat.eqb_spec (next s) o) as [<-|D].
      * intros Q. injection Q as <- <-. rewrite CN. reflexivity.
      * intros Q. rewrite (i_cnt0 _ _ _ Q). reflexivity.
    + intros p o [Q|Q].
      * injection Q as <- <-. rewrite OL, Nat.eqb_refl. discriminate.
      * rewrite OL. destruct (Nat.eqb (next s) o); [discriminate|]. apply in_app_iff in Q. destruct Q as [Q|Q]; [|eauto].
        apply IF in Q. destruct Q as (f & _ & Q & _). discriminate.
    + intros o. split; [intros []|]. rewrite OL, CC. destruct (Nat.eqb_spec (next s) o) as [<-|D]; [lia|].
      intros Q. apply (proj2 (i_dead0 o)). cbn in Q. exact Q.
    + intros o f. cbn [map fst]. rewrite map_app. cbn [In]. rewrite in_app_iff. intros [Q|[Q|Q]]; [discriminate| |].
      * apply KF in Q. destruct Q as (g & Q & L). injection Q as -> ->. exists 1%Z, k. rewrite OL, Nat.eqb_refl. auto.
      * destruct (i_fld3 _ _ Q) as (c & j & A & L). exists c, j. rewrite OL. destruct (Nat.eqb_spec (next s) o); [congruence|auto].
    + intros o f c j. rewrite OL, CC. cbn [map fst]. rewrite map_app. cbn [In]. rewrite in_app_iff.
      destruct (Nat.eqb_spec (next s) o) as [<-|D].
      * intros Q _ L. injection Q as <- <-. left. right. left. apply KF. eauto.
      * intros Q C L. destruct (i_fld4 o f c j Q C L) as [A|A]; [auto|discriminate].
    + intros p [].
    + intros l1 o l2 f Q. destruct l1; discriminate.
  - unfold no_tmp. cbn [ptrs map fst]. rewrite map_app. cbn [In]. rewrite in_app_iff. intros [Q|[Q|Q]]; [discriminate| |auto].
    apply KF in Q. destruct Q as (f & Q & _). discriminate.
Qed.

Lemma named_lookup : forall s q, named s q -> (exists v, lookup q (ptrs s) = Some v) /\ q <> Tmp.
Proof.
  intros s q N. split; [apply lookup_key; apply (named_drop _ _ N)|]. intros ->. exact N.
Qed.

Lemma step_ok : forall s o, Inv None s [] -> no_tmp s -> small s -> fine s o ->
  exists s1, step s o = Ok s1 /\ Inv None s1 [] /\ no_tmp s1 /\
    (match o with ONew _ _ => True | _ => After s s1 (written s o) (value s o) end).
Proof.
  intros s o H NT SM FN. destruct o as [x|x k|x q|x|p q|p]; cbn [fine] in FN.
  - destruct (make_ok s x None H NT SM FN I) as (s1 & E & A & B). exists s1. cbn [step].
    apply lookup_none in FN. rewrite FN. split; [exact E|]. split; [apply A|]. auto.
  - destruct (new_ok s x k H NT FN) as (s1 & E & A & B & _). eauto.
  - destruct FN as [FN NQ]. destruct (named_lookup _ _ NQ) as [(v & EQ) _].
    destruct (make_ok s x v H NT SM FN) as (s1 & E & A & B).
    { destruct v as [o|]; [|exact I]. apply lookup_in in EQ. eapply i_tgt; eauto. }
    exists s1. cbn [step]. apply lookup_none in FN. rewrite FN, EQ. split; [exact E|]. split; [apply A|].
    cbn [written value]. rewrite EQ. auto.
  - destruct (drop_var_ok s x H NT SM FN) as (s1 & E & A & B). exists s1. split; [exact E|]. split; [apply A|]. auto.
  - destruct FN as [NP NQ]. destruct (named_lookup _ _ NQ) as [(v & EQ) QT].
    destruct (assign_ok s p q v H NT SM NP EQ QT) as (s1 & E & A & B). exists s1. split; [exact E|]. split; [apply A|].
    cbn [written value]. rewrite EQ. auto.
  - destruct (assign_null_ok s p H NT SM FN) as (s1 & E & A & B). exists s1. split; [exact E|]. split; [apply A|]. auto.
Qed.

Lemma inv_frun : forall l s, frun l s -> Inv None s [] /\ no_tmp s /\ small s.
Proof.
  induction 1 as [|l s o s1 R (H & NT & SM) FN E SM1].
  - split; [apply inv_start|]. split; [intros []|]. unfold small, start. cbn. lia.
  - destruct (step_ok s o H NT SM FN) as (s2 & E2 & A & B & _). assert (s2 = s1) by congruence. subst. auto.
Qed.
