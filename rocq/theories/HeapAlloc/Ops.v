(** The internal operations keep the invariant. *)
From Coq Require Import List ZArith Lia Bool Arith ZifyBool.
From Verif.HeapBuckets Require Import Model Spec Proofs.
From Verif.HeapAlloc Require Import Model Spec Inv.
Import ListNotations.
Local Open Scope Z_scope.

Lemma upd2 : forall (f : nat -> nat -> list Z) t k l t' k',
  upd f t (upd (f t) k l) t' k' = if Nat.eqb t' t && Nat.eqb k' k then l else f t' k'.
Proof.
  intros. unfold upd. destruct (Nat.eqb_spec t' t) as [->|]; cbn [andb]; auto.
Qed.

Ltac st_ := cbn [heapBegin heapEnd heapRem expand mmapStart maxUsed buf res free ret hdr data maps
                 set_master set_cfg set_buf set_free set_ret set_hdr set_data set_maps memset memcpy] in *.

Lemma hdr_set_other : forall s a h y, y <> a -> hdr (set_hdr s a h) y = hdr s y.
Proof. intros. st_. destruct (Z.eqb_spec y a); congruence. Qed.
Lemma hdr_set_same : forall s a h, hdr (set_hdr s a h) a = h.
Proof. intros. st_. now rewrite Z.eqb_refl. Qed.

(** giving a block back to a list *)
Lemma push_free : forall hole own place s A c t k, Inv hole own place s A -> place c = PHold -> blk own s c (Home t k) ->
  Inv hole own (updz place c (PFree t k)) (set_hdr (set_free s t k (c :: free s t k)) c Link) A.
Proof.
  intros hole own place s A c t k I P B.
  set (s' := set_hdr _ _ _). set (place' := updz _ _ _).
  assert (HO : forall b y, b <> c -> own y = TB b -> own y = TB b) by auto.
  assert (HP : forall b, b <> c -> own b = TB b -> place' b = place b) by (intros; apply updz_other; auto).
  assert (HH : forall b y, b <> c -> own y = TB b -> hdr s' y = hdr s y).
  { intros b y N O. unfold s'. rewrite hdr_set_other; [reflexivity|]. intros ->.
    pose proof (blk_self _ _ _ _ B). congruence. }
  assert (HD : forall b y, b <> c -> own y = TB b -> data s' y = data s y) by auto.
  assert (HM : forall b n, b <> c -> In (b, n) (maps s) -> In (b, n) (maps s')) by auto.
  assert (NI : forall t' k', ~ In c (free s t' k')).
  { intros t' k' F. destruct (i_free _ _ _ _ _ I _ _ _ F). congruence. }
  constructor; try (unfold s'; st_; apply I).
  - apply (keep_live hole own own place place' s s' A c); auto. right. congruence.
  - intros t' k' b F. unfold s' in F. st_. rewrite upd2 in F.
    assert (X : In b (free s t' k') -> place' b = PFree t' k' /\ blk own s' b (Home t' k')).
    { apply (keep_free hole own own place place' s s' A c); auto. right. congruence. }
    destruct (Nat.eqb_spec t' t) as [->|]; cbn [andb] in F; auto.
    destruct (Nat.eqb_spec k' k) as [->|]; auto. destruct F as [<-|F]; auto.
    split; [apply updz_same | apply (blk_mono own own s s'); auto].
  - intros t' k'. unfold s'. st_. rewrite upd2.
    destruct (Nat.eqb t' t && Nat.eqb k' k)%bool; [constructor; [apply NI|]|]; apply I.
  - intros t' k' b F. revert t' k' b F. apply (keep_ret hole own own place place' s s' A c); auto. right. congruence.
Qed.

Lemma push_ret : forall hole own place s A c t k, Inv hole own place s A -> place c = PHold -> blk own s c (Home t k) ->
  Inv hole own (updz place c (PRet t k)) (set_hdr (set_ret s t k (c :: ret s t k)) c Link) A.
Proof.
  intros hole own place s A c t k I P B.
  set (s' := set_hdr _ _ _). set (place' := updz _ _ _).
  assert (HO : forall b y, b <> c -> own y = TB b -> own y = TB b) by auto.
  assert (HP : forall b, b <> c -> own b = TB b -> place' b = place b) by (intros; apply updz_other; auto).
  assert (HH : forall b y, b <> c -> own y = TB b -> hdr s' y = hdr s y).
  { intros b y N O. unfold s'. rewrite hdr_set_other; [reflexivity|]. intros ->.
    pose proof (blk_self _ _ _ _ B). congruence. }
  assert (HD : forall b y, b <> c -> own y = TB b -> data s' y = data s y) by auto.
  assert (HM : forall b n, b <> c -> In (b, n) (maps s) -> In (b, n) (maps s')) by auto.
  assert (NI : forall t' k', ~ In c (ret s t' k')).
  { intros t' k' F. destruct (i_ret _ _ _ _ _ I _ _ _ F). congruence. }
  constructor; try (unfold s'; st_; apply I).
  - apply (keep_live hole own own place place' s s' A c); auto. right. congruence.
  - intros t' k' b F. revert t' k' b F. apply (keep_free hole own own place place' s s' A c); auto. right. congruence.
  - intros t' k' b F. unfold s' in F. st_. rewrite upd2 in F.
    assert (X : In b (ret s t' k') -> place' b = PRet t' k' /\ blk own s' b (Home t' k')).
    { apply (keep_ret hole own own place place' s s' A c); auto. right. congruence. }
    destruct (Nat.eqb_spec t' t) as [->|]; cbn [andb] in F; auto.
    destruct (Nat.eqb_spec k' k) as [->|]; auto. destruct F as [<-|F]; auto.
    split; [apply updz_same | apply (blk_mono own own s s'); auto].
  - intros t' k'. unfold s'. st_. rewrite upd2.
    destruct (Nat.eqb t' t && Nat.eqb k' k)%bool; [constructor; [apply NI|]|]; apply I.
Qed.

Lemma remove1_in : forall l m x, In x l -> x <> m -> In x (remove1 m l).
Proof.
  induction l as [|y l IH]; intros m x H N; [destruct H|]. cbn [remove1].
  destruct ((fst y =? fst m) && (snd y =? snd m)) eqn:E.
  - destruct H as [->|H]; auto. exfalso. apply N. destruct x, m; cbn in E. f_equal; lia.
  - destruct H as [->|H]; [left; auto | right; auto].
Qed.

(** giving a mapping back to the system *)
Lemma unmap : forall own place s A c n, Inv nohole own place s A -> place c = PHold -> blk own s c (Map n) ->
  exists own', Inv nohole own' place (set_hdr (set_maps s (remove1 (c, n) (maps s))) c Junk) A.
Proof.
  intros own place s A c n I P B. set (s' := set_hdr _ _ _).
  set (own' := fun y => match own y with TB b => if b =? c then TN else TB b | o => o end). exists own'.
  assert (OT : forall y, own' y = own y \/ (own y = TB c /\ own' y = TN)).
  { intros y. unfold own'. destruct (own y) as [b| | |] eqn:E; auto.
    destruct (Z.eqb_spec b c) as [->|]; auto. }
  assert (HO : forall b y, b <> c -> own y = TB b -> own' y = TB b).
  { intros b y N O. destruct (OT y) as [|(E & _)]; congruence. }
  assert (HP : forall b, b <> c -> own b = TB b -> place b = place b) by auto.
  assert (HH : forall b y, b <> c -> own y = TB b -> hdr s' y = hdr s y).
  { intros b y N O. unfold s'. rewrite hdr_set_other; [reflexivity|]. intros ->.
    pose proof (blk_self _ _ _ _ B). congruence. }
  assert (HD : forall b y, b <> c -> own y = TB b -> data s' y = data s y) by auto.
  assert (HM : forall b m, b <> c -> In (b, m) (maps s) -> In (b, m) (maps s')).
  { intros b m N M. unfold s'. st_. apply remove1_in; auto. congruence. }
  constructor; try (unfold s'; st_; apply I).
  - apply (keep_live nohole own own' place place s s' A c); auto. right. congruence.
  - apply (keep_free nohole own own' place place s s' A c); auto. right. congruence.
  - apply (keep_ret nohole own own' place place s s' A c); auto. right. congruence.
  - intros t _. unfold s'. st_. destruct (i_res _ _ _ _ _ I t eq_refl) as (R1 & R2 & R3 & R4 & R5).
    repeat split; auto. intros y Y. specialize (R5 y Y). destruct (OT y) as [|(E & _)]; congruence.
  - unfold s'. st_. destruct (i_mst _ _ _ _ _ I) as (R1 & R2 & R3 & R4 & R5).
    repeat split; auto; try lia. intros y Y. specialize (R5 y Y). destruct (OT y) as [|(E & _)]; congruence.
  - intros y Y. unfold s'. st_. assert (own y <> TN /\ own y <> TB c) as (N1 & N2).
    { destruct (OT y) as [E|(E & E')]; [|congruence]. rewrite E in Y. split; auto.
      intros X. unfold own' in E. rewrite X, Z.eqb_refl in E. congruence. }
    destruct (i_sys _ _ _ _ _ I y N1) as [H|(m & M & R)]; auto. right. exists m. split; auto.
    apply remove1_in; auto. intros ->. cbn [fst snd] in R. apply N2. apply (B_own _ _ _ _ B). exact R.
Qed.

Section Alloc.
  Variables (page : Z) (dbg : bool).
  Hypothesis Hpage : 0 < page.
  Hypothesis Hp16 : page mod 16 = 0.

  Lemma scrub_frame : forall own place s A c t k, Inv nohole own place s A -> place c = PHold ->
    blk own s c (Home t k) ->
    Inv nohole own place (scrub dbg c (bs k) s) A /\ same s (scrub dbg c (bs k) s) /\
    hdr (scrub dbg c (bs k) s) = hdr s.
  Proof.
    intros own place s A c t k I P B.
    assert (SM : same s (scrub dbg c (bs k) s) /\ hdr (scrub dbg c (bs k) s) = hdr s).
    { unfold scrub. destruct dbg; cbn [negb]; [|split; auto using same_refl].
      destruct (bs k - lib <=? SCRUB_SIZE * 2); split; repeat split. }
    destruct SM as (SM & HS). split; [|split]; auto.
    apply (hold_frame nohole own place s A _ c); auto; [intros y Y; now rewrite HS|].
    intros y Y. assert (R : ~ (c <= y < c + bs k)) by (intros R; apply Y; apply (B_own _ _ _ _ B); exact R).
    unfold scrub. destruct dbg; cbn [negb]; auto. pose proof (bs_range k (B_w _ _ _ _ B)).
    unfold lib, SCRUB_SIZE. destruct (Z.leb_spec (bs k - 16) (1024 * 2)); st_;
      repeat match goal with |- context [within ?a ?b ?c] => destruct (within a b c) eqn:? end; auto;
      repeat match goal with H : within _ _ _ = true |- _ => apply within_spec in H end; lia.
  Qed.

  Lemma doFree_ok : forall own place s A t a x, Inv nohole own place s A -> A a = Some x ->
    exists s' own' place', doFree dbg t a s = Ok s' /\ Inv nohole own' place' s' (del A a) /\
      forall a' x', A a' = Some x' -> a' <> a -> headers s' a' = headers s a'.
  Proof.
    intros own place s A t a x I H. destruct (release _ _ _ _ _ _ _ I H) as (b & w & L & I').
    assert (HF : forall s', (forall y, y <> b -> hdr s' y = hdr s y) ->
      forall a' x', A a' = Some x' -> a' <> a -> headers s' a' = headers s a').
    { intros s' D a' x' H' N. destruct (i_live _ _ _ _ _ I a' x' H') as (b' & w' & L').
      pose proof (lv_hdr_own _ _ _ _ _ _ _ L') as (O1 & O2). pose proof (lv_hdr_own _ _ _ _ _ _ _ L) as (_ & O3).
      pose proof (L_place _ _ _ _ _ _ _ L) as P1. pose proof (L_place _ _ _ _ _ _ _ L') as P2.
      assert (NB : b' <> b) by congruence.
      rewrite (hok_headers _ _ _ _ _ _ _ (L_hdr _ _ _ _ _ _ _ L')). apply hok_headers.
      pose proof (L_hdr _ _ _ _ _ _ _ L') as HK. unfold hok in *. rewrite !D by congruence. exact HK. }
    unfold doFree. rewrite (hok_headers _ _ _ _ _ _ _ (L_hdr _ _ _ _ _ _ _ L)). cbn [bind].
    pose proof (L_blk _ _ _ _ _ _ _ L) as B. pose proof (updz_same _ place b PHold) as P.
    destruct w as [o k|n].
    - destruct (scrub_frame _ _ _ _ _ _ _ I' P B) as (I2 & SM & HS).
      set (s1 := scrub dbg b (bs k) s) in *.
      assert (B1 : blk own s1 b (Home o k)) by (apply (blk_mono own own s s1); auto; unfold same in SM; intros n; replace (maps s1) with (maps s) by (symmetry; apply SM); auto).
      destruct (Nat.eqb t o); eexists; exists own; eexists; (split; [reflexivity|split]).
      + apply (push_free nohole own (updz place b PHold) s1); auto.
      + apply HF. intros y Y. rewrite hdr_set_other by auto. st_. now rewrite HS.
      + apply (push_ret nohole own (updz place b PHold) s1); auto.
      + apply HF. intros y Y. rewrite hdr_set_other by auto. st_. now rewrite HS.
    - destruct (unmap _ _ _ _ _ _ I' P B) as (own' & I2). eexists; exists own'; eexists.
      split; [reflexivity|split; [exact I2|]].
      apply HF. intros y Y. rewrite hdr_set_other by auto. reflexivity.
  Qed.

  (** taking a block from a list *)
  Lemma pop_free : forall own place s A t k b r, Inv nohole own place s A -> free s t k = b :: r ->
    Inv nohole own (updz place b PHold) (set_free s t k r) A /\ blk own (set_free s t k r) b (Home t k).
  Proof.
    intros own place s A t k b r I E.
    destruct (i_free _ _ _ _ _ I t k b) as (P & B); [rewrite E; left; auto|].
    split; [|apply (blk_mono own own s); auto].
    set (s' := set_free s t k r). set (place' := updz place b PHold).
    assert (HO : forall c y, c <> b -> own y = TB c -> own y = TB c) by auto.
    assert (HP : forall c, c <> b -> own c = TB c -> place' c = place c) by (intros; apply updz_other; auto).
    assert (HH : forall c y, c <> b -> own y = TB c -> hdr s' y = hdr s y) by auto.
    assert (HD : forall c y, c <> b -> own y = TB c -> data s' y = data s y) by auto.
    assert (HM : forall c n, c <> b -> In (c, n) (maps s) -> In (c, n) (maps s')) by auto.
    pose proof (i_fnd _ _ _ _ _ I t k) as ND. rewrite E in ND. inversion ND as [|? ? NI ND']; subst.
    constructor; try (unfold s'; st_; apply I).
    - apply (keep_live nohole own own place place' s s' A b); auto. right. congruence.
    - intros t' k' c F. assert (F' : In c (free s t' k') /\ c <> b).
      { unfold s' in F. st_. rewrite upd2 in F.
        destruct (Nat.eqb_spec t' t) as [->|N1]; cbn [andb] in F.
        - destruct (Nat.eqb_spec k' k) as [->|N2].
          + split; [rewrite E; right; auto | intros ->; auto].
          + split; auto. intros ->. destruct (i_free _ _ _ _ _ I _ _ _ F). congruence.
        - split; auto. intros ->. destruct (i_free _ _ _ _ _ I _ _ _ F). congruence. }
      destruct F' as (F' & N). destruct (i_free _ _ _ _ _ I _ _ _ F') as (Q & B').
      split; [unfold place'; rewrite updz_other; auto | apply (blk_mono own own s); auto].
    - intros t' k'. unfold s'. st_. rewrite upd2.
      destruct (Nat.eqb t' t && Nat.eqb k' k)%bool; auto. apply I.
    - intros t' k' c F. revert t' k' c F. apply (keep_ret nohole own own place place' s s' A b); auto. right. congruence.
  Qed.

  Lemma pop_ret : forall own place s A t k b r, Inv nohole own place s A -> free s t k = [] -> ret s t k = b :: r ->
    exists place', Inv nohole own place' (set_free (set_ret s t k []) t k r) A /\ place' b = PHold /\
      blk own (set_free (set_ret s t k []) t k r) b (Home t k).
  Proof.
    intros own place s A t k b r I E0 E.
    destruct (i_ret _ _ _ _ _ I t k b) as (P & B); [rewrite E; left; auto|].
    pose proof (i_rnd _ _ _ _ _ I t k) as ND. rewrite E in ND. inversion ND as [|? ? NI ND']; subst.
    set (s' := set_free _ _ _ _).
    set (place' := fun c => if c =? b then PHold else
                     match place c with PRet t' k' => if Nat.eqb t' t && Nat.eqb k' k then PFree t' k' else PRet t' k'
                                      | p => p end).
    exists place'. split; [|split; [unfold place'; now rewrite Z.eqb_refl | apply (blk_mono own own s); auto]].
    constructor; try (unfold s'; st_; apply I).
    - intros a x H. destruct (i_live _ _ _ _ _ I a x H) as (c & w & L). exists c, w.
      apply (lv_mono own place s); auto. pose proof (L_place _ _ _ _ _ _ _ L) as Q.
      unfold place'. destruct (Z.eqb_spec c b) as [->|]; [congruence|]. rewrite Q. reflexivity.
    - intros t' k' c F. unfold s' in F. st_. rewrite upd2 in F.
      destruct (Nat.eqb t' t && Nat.eqb k' k)%bool eqn:TK.
      + apply andb_true_iff in TK as (T1 & T2). apply Nat.eqb_eq in T1, T2. subst t' k'.
        assert (F' : In c (ret s t k)) by (rewrite E; right; auto).
        destruct (i_ret _ _ _ _ _ I _ _ _ F') as (Q & B'). split; [|apply (blk_mono own own s); auto].
        unfold place'. destruct (Z.eqb_spec c b) as [->|]; [contradiction|]. now rewrite Q, !Nat.eqb_refl.
      + destruct (i_free _ _ _ _ _ I _ _ _ F) as (Q & B'). split; [|apply (blk_mono own own s); auto].
        unfold place'. destruct (Z.eqb_spec c b) as [->|]; [congruence|]. now rewrite Q.
    - intros t' k'. unfold s'. st_. rewrite upd2.
      destruct (Nat.eqb t' t && Nat.eqb k' k)%bool; auto. apply I.
    - intros t' k' c F. unfold s' in F. st_. rewrite upd2 in F.
      destruct (Nat.eqb t' t && Nat.eqb k' k)%bool eqn:TK; [destruct F|].
      destruct (i_ret _ _ _ _ _ I _ _ _ F) as (Q & B'). split; [|apply (blk_mono own own s); auto].
      unfold place'. destruct (Z.eqb_spec c b) as [->|].
      + exfalso. rewrite P in Q. injection Q as -> ->. now rewrite !Nat.eqb_refl in TK.
      + now rewrite Q, TK.
    - intros t' k'. unfold s'. st_. rewrite upd2.
      destruct (Nat.eqb t' t && Nat.eqb k' k)%bool; [constructor|]. apply I.
  Qed.

  Lemma ceiling2_ok : forall n al, 0 < al -> n <= ceiling2 n al < n + al /\ ceiling2 n al mod al = 0.
  Proof.
    intros n al P. unfold ceiling2. split; [|apply Z.mod_mul; lia].
    pose proof (Z.div_mod (n + (al - 1)) al ltac:(lia)). pose proof (Z.mod_pos_bound (n + (al - 1)) al P). nia.
  Qed.

  (** the leftover of a manager's buffer *)
  Lemma file_ok : forall own place s A t, Inv nohole own place s A ->
    exists own' place', Inv (hole1 t) own' place' (file_leftover t s) A /\
      heapEnd (file_leftover t s) = heapEnd s /\ heapRem (file_leftover t s) = heapRem s /\
      heapBegin (file_leftover t s) = heapBegin s /\ expand (file_leftover t s) = expand s.
  Proof.
    intros own place s A t I. destruct (i_res _ _ _ _ _ I t eq_refl) as (R1 & R2 & R3 & R4 & R5).
    assert (I1 : Inv (hole1 t) own place s A) by (destruct I; constructor; auto).
    unfold file_leftover. destruct (leftover (maxUsed s) (res s t)) as [k|] eqn:E.
    2:{ exists own, place. auto 6. }
    destruct (i_cfg _ _ _ _ _ I) as (C1 & C2 & C3).
    destruct (leftover_ok (maxUsed s) (res s t) k) as (z & Z1 & Z2); auto; [apply (least_lt _ _ C2)|].
    assert (K : (k < 91)%nat) by (change 91%nat with (length bucketSizes); apply nth_error_Some; congruence).
    assert (BS : bs k = z) by (unfold bs; apply nth_error_nth; auto).
    pose proof (bs_range k K) as BR. set (b := buf s t) in *.
    set (own' := fun y => if within y b z then TB b else own y).
    assert (O1 : forall y, ~ (b <= y < b + z) -> own' y = own y).
    { intros y N. unfold own'. destruct (within y b z) eqn:W; auto. apply within_spec in W. lia. }
    assert (O2 : forall y, b <= y < b + z -> own' y = TB b /\ own y = TR t).
    { intros y N. unfold own'. assert (W : within y b z = true) by (apply within_spec; lia). rewrite W.
      split; auto. apply R5. lia. }
    assert (O3 : forall c y, own y = TB c -> own' y = TB c).
    { intros c y O. rewrite O1; auto. intros N. destruct (O2 y N). congruence. }
    assert (NB : own b = TR t) by (apply O2; lia).
    set (place0 := updz place b PHold).
    assert (I2 : Inv (hole1 t) own' place0 s A).
    { assert (HO : forall c y, c <> b -> own y = TB c -> own' y = TB c) by auto.
      assert (HP : forall c, c <> b -> own c = TB c -> place0 c = place c) by (intros; apply updz_other; auto).
      constructor; try apply I.
      - apply (keep_live (hole1 t) own own' place place0 s s A b); auto. left. congruence.
      - apply (keep_free (hole1 t) own own' place place0 s s A b); auto. left. congruence.
      - apply (keep_ret (hole1 t) own own' place place0 s s A b); auto. left. congruence.
      - intros j J. unfold hole1 in J. apply Nat.eqb_neq in J.
        destruct (i_res _ _ _ _ _ I j eq_refl) as (Q1 & Q2 & Q3 & Q4 & Q5). repeat split; auto.
        intros y Y. rewrite O1; auto. intros N. destruct (O2 y N) as (_ & X). rewrite (Q5 y Y) in X. congruence.
      - destruct (i_mst _ _ _ _ _ I) as (Q1 & Q2 & Q3 & Q4 & Q5). repeat split; auto; try lia.
        intros y Y. rewrite O1; auto. intros N. destruct (O2 y N) as (_ & X). rewrite (Q5 y Y) in X. congruence.
      - intros y Y. apply (i_sys _ _ _ _ _ I). intros X. apply Y. rewrite O1; auto.
        intros N. destruct (O2 y N). congruence. }
    exists own', (updz place0 b (PFree t k)). split; [|auto].
    apply push_free; auto; [apply updz_same|].
    constructor; auto; [apply R4; lia | intros y Y; apply O2; cbn [bsize] in Y; lia].
  Qed.

  Lemma master_ok : forall hole own place s A n s' b t, Inv hole own place s A -> 0 < n -> n mod 16 = 0 ->
    master_extend n s = Ok (s', b) ->
    exists own', Inv hole own' place s' A /\ 0 < b /\ b mod 16 = 0 /\
      (forall y, b <= y < b + n -> own' y = TR t) /\
      (forall t', hole t' = false -> forall y, buf s' t' <= y < buf s' t' + res s' t' -> ~ (b <= y < b + n)) /\
      (heapBegin s' <= b /\ b + n <= heapEnd s').
  Proof.
    intros hole own place s A n s' b t I N M E.
    destruct (i_mst _ _ _ _ _ I) as (Q1 & Q2 & Q3 & Q4 & Q5).
    assert (X : exists m, s' = set_master s (heapEnd s + n) m /\ b = heapEnd s /\ 0 <= m /\ m mod 16 = 0 /\
      heapRem s <= n + m /\ forall y, heapEnd s <= y < heapEnd s + n + m -> own y = TM \/ own y = TN).
    { unfold master_extend in E. destruct (Z.ltb_spec (heapRem s - n) 0) as [C|C].
      - set (inc := ceiling2 (if expand s <? n then n else expand s) lib) in *.
        assert (IC : n <= inc /\ inc mod 16 = 0).
        { unfold inc, lib. destruct (ceiling2_ok (if expand s <? n then n else expand s) 16 ltac:(lia)) as (H1 & H2).
          split; auto. destruct (Z.ltb_spec (expand s) n); lia. }
        destruct (forallb _ (maps s)) eqn:F; [|discriminate]. injection E as <- <-.
        exists (heapRem s + inc - n). repeat split; try lia.
        + rewrite Zminus_mod, Zplus_mod, Q4, (proj2 IC), M. reflexivity.
        + intros y Y. destruct (Z.lt_ge_cases y (heapEnd s + heapRem s)) as [D|D]; [left; apply Q5; lia|].
          right. destruct (own y) as [c|c| |] eqn:O; auto; exfalso;
          (destruct (i_sys _ _ _ _ _ I y) as [R|(m & MI & R)]; [congruence | lia |];
           rewrite forallb_forall in F; specialize (F m MI); unfold apart in F; lia).
      - injection E as <- <-. exists (heapRem s - n). repeat split; try lia.
        + rewrite Zminus_mod, Q4, M. reflexivity.
        + intros y Y. left. apply Q5. lia. }
    destruct X as (m & -> & -> & M1 & M2 & M3 & O). set (e := heapEnd s) in *.
    set (own' := fun y => if within y e n then TR t else if within y (e + n) m then TM else own y).
    assert (OA : forall y, e <= y < e + n -> own' y = TR t).
    { intros y Y. unfold own'. assert (W : within y e n = true) by (apply within_spec; lia). now rewrite W. }
    assert (OB : forall y, e + n <= y < e + n + m -> own' y = TM).
    { intros y Y. unfold own'. destruct (within y e n) eqn:W; [apply within_spec in W; lia|].
      assert (W2 : within y (e + n) m = true) by (apply within_spec; lia). now rewrite W2. }
    assert (OC : forall y, ~ (e <= y < e + n + m) -> own' y = own y).
    { intros y Y. unfold own'. destruct (within y e n) eqn:W; [apply within_spec in W; lia|].
      destruct (within y (e + n) m) eqn:W2; [apply within_spec in W2; lia|]. reflexivity. }
    assert (OD : forall y, own y <> TM -> own y <> TN -> own' y = own y).
    { intros y Y1 Y2. apply OC. intros Y. destruct (O y Y); congruence. }
    assert (BM : forall c w, blk own s c w -> blk own' (set_master s (e + n) m) c w).
    { intros c w B. apply (blk_mono own own' s); auto. intros y Y. rewrite OD; congruence. }
    exists own'. split.
    { constructor; try (st_; apply I).
      - intros a x H. destruct (i_live _ _ _ _ _ I a x H) as (c & w & L). exists c, w.
        apply (lv_mono own place s); auto. intros y Y. rewrite OD; congruence.
      - intros t' k c H. destruct (i_free _ _ _ _ _ I _ _ _ H); auto.
      - intros t' k c H. destruct (i_ret _ _ _ _ _ I _ _ _ H); auto.
      - intros t' H. destruct (i_res _ _ _ _ _ I t' H) as (R1 & R2 & R3 & R4 & R). st_. repeat split; auto.
        intros y Y. rewrite OD; rewrite (R y Y); congruence.
      - st_. repeat split; auto; try lia. rewrite Zplus_mod, Q2, M. reflexivity.
      - intros y Y. st_. destruct (Z.lt_ge_cases y (e + n + m)) as [L|L].
        + destruct (Z.lt_ge_cases y e) as [L2|L2]; [|left; lia].
          rewrite OC in Y by lia. destruct (i_sys _ _ _ _ _ I y Y) as [R|R]; auto. left. lia.
        + rewrite OC in Y by lia. destruct (i_sys _ _ _ _ _ I y Y) as [R|R]; auto. left. fold e in R. lia. }
    st_. repeat split; auto; try lia.
    intros t' H y Y Y'. destruct (i_res _ _ _ _ _ I t' H) as (_ & _ & _ & _ & R).
    destruct (O y ltac:(lia)) as [X|X]; rewrite (R y Y) in X; congruence.
  Qed.

  (** the first [size] bytes of a chunk of the reserve become a block in hand *)
  Lemma carve : forall hole own place s A t c n size, Inv hole own place s A ->
    (forall j, hole j = false \/ j = t) ->
    0 < c -> c mod 16 = 0 -> n mod 16 = 0 -> (forall y, c <= y < c + n -> own y = TR t) ->
    32 <= size <= n -> size mod 16 = 0 ->
    exists own' place', Inv nohole own' place' (set_buf s t (c + size) (n - size)) A /\ place' c = PHold /\
      owned own' c size.
  Proof.
    intros hole own place s A t c n size I HL C1 C2 N O S1 S2.
    set (own' := fun y => if within y c size then TB c else own y). set (place' := updz place c PHold).
    assert (O1 : forall y, ~ (c <= y < c + size) -> own' y = own y).
    { intros y Y. unfold own'. destruct (within y c size) eqn:W; auto. apply within_spec in W. lia. }
    assert (O2 : forall y, c <= y < c + size -> own' y = TB c /\ own y = TR t).
    { intros y Y. unfold own'. assert (W : within y c size = true) by (apply within_spec; lia). rewrite W.
      split; auto. apply O. lia. }
    assert (NB : own c = TR t) by (apply O2; lia).
    set (s' := set_buf s t (c + size) (n - size)).
    assert (HO : forall b y, b <> c -> own y = TB b -> own' y = TB b).
    { intros b y _ Y. rewrite O1; auto. intros X. destruct (O2 y X). congruence. }
    assert (HP : forall b, b <> c -> own b = TB b -> place' b = place b) by (intros; apply updz_other; auto).
    assert (HH : forall b y, b <> c -> own y = TB b -> hdr s' y = hdr s y) by auto.
    assert (HD : forall b y, b <> c -> own y = TB b -> data s' y = data s y) by auto.
    assert (HM : forall b m, b <> c -> In (b, m) (maps s) -> In (b, m) (maps s')) by auto.
    exists own', place'. split; [|split; [apply updz_same | intros y Y; apply O2; lia]].
    constructor; try (unfold s'; st_; apply I).
    - apply (keep_live hole own own' place place' s s' A c); auto. left. congruence.
    - intros t' k' b F. revert t' k' b F. apply (keep_free hole own own' place place' s s' A c); auto. left. congruence.
    - intros t' k' b F. revert t' k' b F. apply (keep_ret hole own own' place place' s s' A c); auto. left. congruence.
    - intros j _. unfold s'. st_. unfold upd. destruct (Nat.eqb_spec j t) as [->|J].
      + repeat split; try lia.
        * rewrite Zminus_mod, N, S2. reflexivity.
        * rewrite Zplus_mod, C2, S2. reflexivity.
        * intros y Y. rewrite O1 by lia. apply O. lia.
      + destruct (HL j) as [H|]; [|congruence].
        destruct (i_res _ _ _ _ _ I j H) as (Q1 & Q2 & Q3 & Q4 & Q5). repeat split; auto.
        intros y Y. rewrite O1; auto. intros X. destruct (O2 y X) as (_ & E). rewrite (Q5 y Y) in E. congruence.
    - unfold s'. st_. destruct (i_mst _ _ _ _ _ I) as (Q1 & Q2 & Q3 & Q4 & Q5). repeat split; auto; try lia.
      intros y Y. rewrite O1; auto. intros X. destruct (O2 y X) as (_ & E). rewrite (Q5 y Y) in E. congruence.
    - intros y Y. unfold s'. st_. apply (i_sys _ _ _ _ _ I). intros X. apply Y. rewrite O1; auto.
      intros Z. destruct (O2 y Z). congruence.
  Qed.

  Lemma manager_ok : forall own place s A t k s' b, Inv nohole own place s A -> (k < 91)%nat ->
    manager_extend t (bs k) s = Ok (s', b) ->
    exists own' place', Inv nohole own' place' s' A /\ place' b = PHold /\ blk own' s' b (Home t k).
  Proof.
    intros own place s A t k s' b I K E. pose proof (bs_range k K) as BR. pose proof (bs_al k K) as BA.
    unfold manager_extend in E. destruct (Z.ltb_spec (res s t - bs k) 0) as [C|C].
    - destruct (file_ok own place s A t I) as (own1 & place1 & I1 & _ & _ & _ & EX).
      set (inc := ceiling2 (if expand s / 10 <? bs k then bs k else expand s / 10) lib) in *.
      assert (IC : bs k <= inc /\ inc mod 16 = 0).
      { unfold inc, lib. destruct (ceiling2_ok (if expand s / 10 <? bs k then bs k else expand s / 10) 16 ltac:(lia)) as (H1 & H2).
        split; auto. destruct (Z.ltb_spec (expand s / 10) (bs k)); lia. }
      destruct (master_extend inc (file_leftover t s)) as [[s2 b2]| |] eqn:M; cbn [bind] in E; try discriminate.
      injection E as <- <-.
      assert (IP : 0 < inc) by lia.
      destruct (master_ok _ _ _ _ _ _ _ _ t I1 IP (proj2 IC) M) as (own2 & I2 & P1 & P2 & P3 & _ & _).
      destruct (carve _ _ _ _ _ t b2 inc (bs k) I2) as (own3 & place3 & I3 & P4 & P5); auto; try lia.
      { intros j. unfold hole1. destruct (Nat.eqb_spec j t); auto. }
      exists own3, place3. split; [exact I3 | split; auto]. constructor; auto.
    - injection E as <- <-. destruct (i_res _ _ _ _ _ I t eq_refl) as (R1 & R2 & R3 & R4 & R5).
      assert (0 < buf s t) by (apply R4; lia).
      destruct (carve _ _ _ _ _ t (buf s t) (res s t) (bs k) I) as (own3 & place3 & I3 & P4 & P5); auto; try lia.
      exists own3, place3. split; [exact I3 | split; auto]. constructor; auto.
  Qed.

  Lemma manager_nofault : forall t n s, manager_extend t n s <> Fault.
  Proof.
    intros t n s. unfold manager_extend. destruct (res s t - n <? 0); [|discriminate].
    unfold master_extend. destruct (heapRem _ - _ <? 0); [|discriminate]. destruct (forallb _ _); discriminate.
  Qed.

  Lemma take_ok : forall own place s A t k s' b, Inv nohole own place s A -> (k < 91)%nat ->
    take dbg t k s = Ok (s', b) ->
    exists own' place', Inv nohole own' place' s' A /\ place' b = PHold /\ blk own' s' b (Home t k).
  Proof.
    intros own place s A t k s' b I K E. unfold take in E.
    destruct (free s t k) as [|c r] eqn:F.
    - destruct (ret s t k) as [|c r] eqn:R.
      + destruct (manager_extend t (bs k) s) as [[s2 b2]| |] eqn:M; cbn [bind] in E; try discriminate.
        injection E as <- <-. destruct (manager_ok _ _ _ _ _ _ _ _ I K M) as (own1 & place1 & I1 & P & B).
        exists own1, place1. destruct dbg; [|auto]. split; [|split; auto].
        * apply (hold_frame nohole own1 place1 s2 A _ b2); auto; [repeat split|].
          intros y Y. st_. destruct (within y _ _) eqn:W; auto. exfalso. apply Y. apply (B_own _ _ _ _ B).
          cbn [bsize]. apply within_spec in W. pose proof (bs_range k K). unfold lib, SCRUB_SIZE in W. lia.
        * apply (blk_mono own1 own1 s2); auto.
      + injection E as <- <-. destruct (pop_ret _ _ _ _ _ _ _ _ I F R) as (place1 & I1 & P & B). eauto.
    - injection E as <- <-. destruct (pop_free _ _ _ _ _ _ _ _ I F) as (I1 & B).
      exists own, (updz place c PHold). split; auto. split; auto. apply updz_same.
  Qed.

  Lemma take_nofault : forall t k s, take dbg t k s <> Fault.
  Proof.
    intros t k s. unfold take. destruct (free s t k); [|discriminate]. destruct (ret s t k); [|discriminate].
    destruct (manager_extend t (bs k) s) as [[s2 b2]| |] eqn:M; cbn [bind]; try discriminate.
    exfalso. eapply manager_nofault; eauto.
  Qed.

  (** a fresh mapping *)
  Lemma mmap_ok : forall own place s A os n s', Inv nohole own place s A -> 32 <= n -> sys_mmap page os n s = Ok s' ->
    exists own' place', Inv nohole own' place' s' A /\ place' os = PHold /\ blk own' s' os (Map n) /\
      (forall y, os <= y < os + n -> data s' y = 0).
  Proof.
    intros own place s A os n s' I N E. unfold sys_mmap in E.
    destruct (_ && forallb _ _) eqn:C; [|discriminate]. injection E as <-.
    apply andb_true_iff in C as (C & F). apply andb_true_iff in C as (C & C3). apply andb_true_iff in C as (C1 & C2).
    rewrite forallb_forall in F. unfold apart in C3. cbn [fst snd] in C3.
    set (s' := memset _ _ _ _). destruct (i_mst _ _ _ _ _ I) as (Q1 & Q2 & Q3 & Q4 & Q5).
    set (own' := fun y => if within y os n then TB os else own y). set (place' := updz place os PHold).
    assert (O2 : forall y, os <= y < os + n -> own' y = TB os /\ own y = TN).
    { intros y Y. unfold own'. assert (W : within y os n = true) by (apply within_spec; lia). rewrite W. split; auto.
      destruct (own y) as [c|c| |] eqn:O; auto; exfalso;
      (destruct (i_sys _ _ _ _ _ I y) as [R|(m & M & R)]; [congruence | lia |];
       specialize (F m M); unfold apart in F; lia). }
    assert (O1 : forall y, ~ (os <= y < os + n) -> own' y = own y).
    { intros y Y. unfold own'. destruct (within y os n) eqn:W; auto. apply within_spec in W. lia. }
    assert (O3 : forall y, own y <> TN -> own' y = own y).
    { intros y Y. apply O1. intros X. destruct (O2 y X). congruence. }
    assert (NB : own os = TN) by (apply O2; lia).
    assert (HO : forall b y, b <> os -> own y = TB b -> own' y = TB b) by (intros; rewrite O3; congruence).
    assert (HP : forall b, b <> os -> own b = TB b -> place' b = place b) by (intros; apply updz_other; auto).
    assert (HH : forall b y, b <> os -> own y = TB b -> hdr s' y = hdr s y) by auto.
    assert (HD : forall b y, b <> os -> own y = TB b -> data s' y = data s y).
    { intros b y _ Y. unfold s'. st_. destruct (within y os n) eqn:W; auto. apply within_spec in W.
      destruct (O2 y W). congruence. }
    assert (HM : forall b m, b <> os -> In (b, m) (maps s) -> In (b, m) (maps s')) by (intros; right; auto).
    exists own', place'. split.
    { constructor; try (unfold s'; st_; apply I).
      - apply (keep_live nohole own own' place place' s s' A os); auto. left. congruence.
      - intros t k b FF. revert t k b FF. apply (keep_free nohole own own' place place' s s' A os); auto. left. congruence.
      - intros t k b FF. revert t k b FF. apply (keep_ret nohole own own' place place' s s' A os); auto. left. congruence.
      - intros t H. destruct (i_res _ _ _ _ _ I t H) as (R1 & R2 & R3 & R4 & R). unfold s'. st_. repeat split; auto.
        intros y Y. rewrite O3; rewrite (R y Y); congruence.
      - unfold s'. st_. repeat split; auto; try lia. intros y Y. rewrite O3; rewrite (Q5 y Y); congruence.
      - intros y Y. unfold s'. st_. destruct (within y os n) eqn:W.
        + apply within_spec in W. right. exists (os, n). split; [left; auto | auto].
        + rewrite O1 in Y by (intros X; apply within_spec in X; congruence).
          destruct (i_sys _ _ _ _ _ I y Y) as [R|(m & M & R)]; auto. right. exists m. split; [right; auto | auto]. }
    split; [apply updz_same|]. split.
    { constructor.
      - lia.
      - assert (H : os mod page = 0) by lia. apply Z.mod_divide in H; [|lia].
        assert (H2 : (16 | page)) by (apply Z.mod_divide; [lia | auto]). apply Z.mod_divide; [lia|].
        eapply Z.divide_trans; eauto.
      - intros y Y. apply O2. exact Y.
      - split; [left; reflexivity | lia]. }
    intros y Y. unfold s'. st_. assert (W : within y os n = true) by (apply within_spec; lia). now rewrite W.
  Qed.
End Alloc.
