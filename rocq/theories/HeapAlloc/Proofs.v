(** The calls keep the invariant. *)
From Coq Require Import List ZArith Lia Bool Arith ZifyBool.
From Verif.HeapBuckets Require Import Model Spec Proofs.
From Verif.Bits Require Spec Proofs.
From Verif.HeapAlloc Require Import Model Spec Inv Ops.
Import ListNotations.
Local Open Scope Z_scope.

Lemma alignOk_16 : forall al, alignOk al = true -> 16 <= al /\ al mod 16 = 0.
Proof.
  intros al H. unfold alignOk, lib in H. apply andb_true_iff in H as (H1 & H2).
  split; [lia|]. apply Z.eqb_eq in H2. apply Bits.Proofs.land_pred in H2; [|lia].
  destruct H2 as (k & K & ->). assert (4 <= k).
  { destruct (Z.le_gt_cases 4 k); auto. exfalso.
    assert (2 ^ k <= 2 ^ 3) by (apply Z.pow_le_mono_r; lia). change (2 ^ 3) with 8 in *. lia. }
  apply Z.mod_divide; [lia|]. exists (2 ^ (k - 4)). change 16 with (2 ^ 4). rewrite <- Z.pow_add_r by lia. f_equal. lia.
Qed.

Lemma hok_set : forall s a b w z n al z' n', hok s a b w z n al -> hok (set_hdr s b (Real w z' n')) a b w z' n' al.
Proof.
  intros s a b w z n al z' n' [(E & H & F)|(E & H & F)]; [left|right]; repeat split; auto; try apply hdr_set_same.
  rewrite hdr_set_other; auto. lia.
Qed.

Lemma got_own_b : forall own place s A a b w z n al, got own place s A a b w z n al -> own b = TB b.
Proof. intros. eapply blk_self. eapply g_blk; eauto. Qed.

(** resetting the real header of a block in hand *)
Lemma got_set : forall own place s A a b w z n al z' n', got own place s A a b w z n al ->
  0 <= n' -> a + n' <= b + bsize w -> got own place (set_hdr s b (Real w z' n')) A a b w z' n' al.
Proof.
  intros own place s A a b w z n al z' n' G N L. pose proof (got_own_b _ _ _ _ _ _ _ _ _ _ G) as O.
  eapply got_change; eauto.
  - repeat split.
  - intros y Y. apply hdr_set_other. congruence.
  - apply (hok_set s a b w z n al). eapply g_hdr; eauto.
  - eapply g_al; eauto.
  - eapply g_ok; eauto.
Qed.

(** filling bytes of a block in hand *)
Lemma got_bytes : forall own place s A a b w z n al d, got own place s A a b w z n al ->
  (forall y, ~ (a <= y < b + bsize w) -> d y = data s y) -> got own place (set_data s d) A a b w z n al.
Proof.
  intros own place s A a b w z n al d G D. pose proof (got_pos _ _ _ _ _ _ _ _ _ _ G) as (P1 & P2 & P3).
  eapply got_change; eauto.
  - repeat split.
  - intros y Y. cbn [set_data data]. apply D. intros R. apply Y. eapply got_own; eauto. lia.
  - exact (g_hdr _ _ _ _ _ _ _ _ _ _ G).
  - eapply g_sz; eauto.
  - eapply g_in; eauto.
  - eapply g_al; eauto.
  - eapply g_ok; eauto.
Qed.

Lemma live_pos : forall own place s A a x, Inv nohole own place s A -> A a = Some x -> 0 < a.
Proof.
  intros own place s A a x I H. destruct (i_live _ _ _ _ _ I a x H) as (b & w & L).
  apply (lv_pos _ _ _ _ _ _ _ L).
Qed.

Lemma add_ext : forall A A' a x, (forall y, y <> a -> A y = A' y) -> forall y, add A a x y = add A' a x y.
Proof. intros A A' a x H y. unfold add. destruct (Z.eqb_spec y a); auto. Qed.

Section Alloc.
  Variables (page : Z) (dbg : bool).
  Hypothesis Hpage : 32 <= page.
  Hypothesis Hp16 : page mod 16 = 0.

  (** untouched mapped storage reads zero *)
  Definition mz (s : st) (a b : Z) (w : word) : Prop :=
    dbg = false -> match w with Map _ => forall y, a <= y < b + bsize w -> data s y = 0 | Home _ _ => True end.

  Definition alloc_post (A : live) (n al : Z) (m : result (st * option Z)) : Prop :=
    match m with
    | Ok (s', r) => exists own place a b w, r = Some a /\ got own place s' A a b w false n al /\ mz s' a b w
    | Abort => True
    | Fault => False
    end.

  Definition malloc_post (A : live) (n : Z) (m : result (st * option Z)) : Prop :=
    match m with
    | Ok (s', r) => exists own place b w, r = Some (b + 16) /\ got own place s' A (b + 16) b w false n 16 /\
        hdr s' b = Real w false n /\ mz s' (b + 16) b w
    | Abort => True
    | Fault => False
    end.

  Lemma doMalloc_ok : forall own place s A t size os, Inv nohole own place s A -> 0 <= size -> size + 16 + page < 2 ^ 64 ->
    malloc_post A size (doMalloc page dbg t size os s).
  Proof.
    intros own place s A t size os I S Z. unfold doMalloc, lib. rewrite Z.mod_small by lia.
    destruct (i_cfg _ _ _ _ _ I) as (C1 & C2 & C3).
    destruct (Z.ltb_spec (size + 16) (mmapStart s)) as [C|C].
    - destruct (choose_least (mmapStart s) (maxUsed s) size) as (k & E & L & _); auto.
      rewrite E. pose proof (least_lt _ _ L) as K. unfold NoBucketSizes in K.
      assert (BK : size + 16 <= bs k).
      { destruct L as ((z & Z1 & Z2) & _). unfold bs. rewrite (nth_error_nth _ _ _ Z1). auto. }
      destruct (take dbg t k s) as [[s1 b]| |] eqn:T; cbn [bind]; [|exact Logic.I|exact (take_nofault dbg t k s T)].
      destruct (take_ok dbg _ _ _ _ _ _ _ _ I K T) as (own1 & place1 & I1 & P & B).
      cbn [malloc_post]. exists own1, place1, b, (Home t k). split; auto.
      split; [|split; [apply hdr_set_same|intros _; exact Logic.I]]. pose proof (blk_self _ _ _ _ B) as O.
      constructor; auto.
      + apply (hold_frame nohole own1 place1 s1 A _ b); auto; [repeat split|].
        intros y Y. apply hdr_set_other. congruence.
      + apply (blk_mono own1 own1 s1); auto.
      + left. repeat split. apply hdr_set_same.
      + cbn [bsize]. lia.
      + cbn [bsize]. pose proof (bs_range k K). lia.
      + rewrite Zplus_mod, (B_al _ _ _ _ B). reflexivity.
    - destruct (Z.ltb_spec (2 ^ 64 - 1 - page) size) as [D|D]; [lia|].
      destruct (ceiling2_ok (size + 16) page) as (N1 & N2); [lia|]. set (n := ceiling2 (size + 16) page) in *.
      assert (N32 : 32 <= n).
      { apply Z.mod_divide in N2; [|lia]. apply Z.divide_pos_le in N2; lia. }
      destruct (sys_mmap page os n s) as [s1| |] eqn:M; cbn [bind]; [|exact Logic.I|].
      2:{ unfold sys_mmap in M. destruct (_ && forallb _ _); discriminate. }
      assert (PP : 0 < page) by lia.
      destruct (mmap_ok page PP Hp16 _ _ _ _ _ _ _ I N32 M) as (own1 & place1 & I1 & P & B & DZ).
      set (s2 := if dbg then memset s1 (os + 16) SCRUB (Z.min SCRUB_SIZE (n - 16)) else s1).
      cbn [malloc_post]. exists own1, place1, os, (Map n). split; auto.
      pose proof (blk_self _ _ _ _ B) as O.
      assert (SM : same s1 s2) by (unfold s2; destruct dbg; repeat split).
      assert (HS : hdr s2 = hdr s1) by (unfold s2; destruct dbg; reflexivity).
      assert (DS : forall y, own1 y <> TB os -> data s2 y = data s1 y).
      { intros y Y. unfold s2. destruct dbg; auto. st_. destruct (within y _ _) eqn:W; auto. exfalso. apply Y.
        apply (B_own _ _ _ _ B). apply within_spec in W. cbn [bsize]. unfold SCRUB_SIZE in W. lia. }
      split; [|split; [apply hdr_set_same|]].
      + constructor; auto.
        * apply (hold_frame nohole own1 place1 s1 A _ os); auto.
          intros y Y. rewrite hdr_set_other by congruence. now rewrite HS.
        * apply (blk_mono own1 own1 s1); auto. st_. replace (maps s2) with (maps s1) by (symmetry; apply SM). auto.
        * left. repeat split. apply hdr_set_same.
        * cbn [bsize]. lia.
        * cbn [bsize]. lia.
        * rewrite Zplus_mod, (B_al _ _ _ _ B). reflexivity.
      + intros ND y Y. unfold s2. rewrite ND. st_. apply DZ. cbn [bsize] in Y. lia.
  Qed.

  Lemma malloc_alloc : forall A n m, malloc_post A n m -> alloc_post A n 16 m.
  Proof.
    intros A n [[s r]| |] H; cbn [malloc_post alloc_post] in *; auto.
    destruct H as (own & place & b & w & E & G & _ & M). eauto 10.
  Qed.

  Lemma memalign_ok : forall own place s A t al size os, Inv nohole own place s A -> 0 <= size ->
    size + al + 16 + page < 2 ^ 64 -> alloc_post A size (al_of al size) (memalign page dbg t al size os s).
  Proof.
    intros own place s A t al size os I S Z. unfold memalign, lib.
    destruct (alignOk al) eqn:OK; cbn [negb]; [|exact Logic.I]. destruct (alignOk_16 al OK) as (A1 & A2).
    unfold al_of. destruct (Z.leb_spec al 16) as [L|L]; cbn [orb].
    - assert (al = 16) by lia. subst al.
      destruct (size =? 0); apply malloc_alloc, (doMalloc_ok own place); auto; lia.
    - destruct (Z.eqb_spec size 0) as [->|NZ]; [apply malloc_alloc, (doMalloc_ok own place); auto; lia|].
      replace (al - 16 + 16) with al by lia. rewrite Z.mod_small by lia.
      pose proof (doMalloc_ok own place s A t (size + al) os I ltac:(lia) ltac:(lia)) as D.
      destruct (doMalloc page dbg t (size + al) os s) as [[s1 r]| |]; cbn [bind alloc_post malloc_post] in *; auto.
      destruct D as (own1 & place1 & b & w & -> & G & HB & MZ).
      pose proof (got_pos _ _ _ _ _ _ _ _ _ _ G) as (P1 & P2 & P3).
      pose proof (g_in _ _ _ _ _ _ _ _ _ _ G) as GI.
      pose proof (B_al _ _ _ _ (g_blk _ _ _ _ _ _ _ _ _ _ G)) as BA.
      replace (b + 16 - 16) with b by lia. rewrite HB.
      set (user := ceiling2 (b + 16 + 16) al). destruct (ceiling2_ok (b + 16 + 16) al) as (U1 & U2); [lia|].
      fold user in U1, U2.
      assert (U3 : user <= b + 16 + al).
      { assert (user mod 16 = 0).
        { apply Z.mod_divide in U2; [|lia]. apply Z.mod_divide in A2; [|lia]. apply Z.mod_divide; [lia|].
          eapply Z.divide_trans; eauto. }
        apply Z.mod_divide in H as (u & ->); [|lia]. apply Z.mod_divide in A2 as (v & ->); [|lia].
        apply Z.mod_divide in BA as (q & ->); [|lia]. lia. }
      exists own1, place1, user, b, w. split; auto.
      assert (O1 : own1 (user - 16) = TB b) by (eapply got_own; eauto; lia).
      assert (O2 : own1 b = TB b) by (eapply got_own; eauto; lia).
      split.
      + destruct G as [GI1 GH GB GHD GS GIN GLT GAL GOK]. constructor; auto; try lia.
        * apply (hold_frame nohole own1 place1 s1 A _ b); auto; [repeat split|].
          intros y Y. rewrite !hdr_set_other by congruence. reflexivity.
        * apply (blk_mono own1 own1 s1); auto.
        * right. repeat split; [lia| |].
          { rewrite hdr_set_same. f_equal. }
          { rewrite hdr_set_other by lia. apply hdr_set_same. }
      + intros ND. specialize (MZ ND). destruct w; auto. st_. intros y Y. apply MZ. lia.
  Qed.

  Lemma zero_block_ok : forall own place s A a b w n al, got own place s A a b w false n al -> mz s a b w ->
    exists s', zero_block dbg a n s = Ok (s', Some a) /\ got own place s' A a b w true n al /\
      forall y, a <= y < a + n -> data s' y = 0.
  Proof.
    intros own place s A a b w n al G MZ. unfold zero_block.
    rewrite (hok_headers _ _ _ _ _ _ _ (g_hdr _ _ _ _ _ _ _ _ _ _ G)). cbn [bind].
    pose proof (g_in _ _ _ _ _ _ _ _ _ _ G) as GI. pose proof (g_sz _ _ _ _ _ _ _ _ _ _ G) as GS.
    pose proof (got_pos _ _ _ _ _ _ _ _ _ _ G) as GP.
    set (s1 := if negb dbg && match w with Map _ => true | _ => false end then s else memset s a 0 n).
    assert (G1 : got own place s1 A a b w false n al /\ forall y, a <= y < a + n -> data s1 y = 0).
    { unfold s1. destruct (negb dbg && match w with Map _ => true | _ => false end) eqn:C.
      - split; auto. intros y Y. assert (ND : dbg = false) by (apply andb_true_iff in C; destruct dbg; [destruct C; discriminate|auto]).
        destruct w; [rewrite andb_false_r in C; discriminate|].
        cbn [bsize] in *. pose proof (MZ ND) as MZ'. apply MZ'. cbn [bsize]. lia.
      - split.
        + apply got_bytes; auto. intros y Y. destruct (within y a n) eqn:W; auto. apply within_spec in W. lia.
        + intros y Y. st_. assert (W : within y a n = true) by (apply within_spec; lia). now rewrite W. }
    destruct G1 as (G1 & D1). eexists. split; [reflexivity|]. split; [|exact D1].
    eapply got_set; eauto.
  Qed.

  Definition call_post (A : live) (x : Z -> alloc) (A0 : live) (m : result (st * option Z)) : Prop :=
    match m with
    | Ok (s', r) => exists own place a, r = Some a /\ A0 a = None /\ Inv nohole own place s' (add A a (x a))
    | Abort => True
    | Fault => False
    end.

  Lemma alloc_call : forall A n al m, alloc_post A n al m -> call_post A (fun _ => Al n al false fresh) A m.
  Proof.
    intros A n al [[s r]| |] H; cbn [alloc_post call_post] in *; auto.
    destruct H as (own & place & a & b & w & -> & G & _). pose proof (got_new _ _ _ _ _ _ _ _ _ _ G).
    destruct (grant _ _ _ _ _ _ _ _ _ _ fresh G) as (place' & I); [discriminate|]. eauto 8.
  Qed.

  Lemma zeroed_call : forall A n al m, alloc_post A n al m ->
    call_post A (fun _ => Al n al true zeros) A
      (bind m (fun '(s1, r) => match r with None => Ok (s1, None) | Some a => zero_block dbg a n s1 end)).
  Proof.
    intros A n al [[s r]| |] H; cbn [alloc_post call_post bind] in *; auto.
    destruct H as (own & place & a & b & w & -> & G & MZ).
    destruct (zero_block_ok _ _ _ _ _ _ _ _ _ G MZ) as (s' & -> & G' & D).
    pose proof (got_new _ _ _ _ _ _ _ _ _ _ G).
    destruct (grant _ _ _ _ _ _ _ _ _ _ zeros G') as (place' & I); [|cbn [call_post]; eauto 8].
    intros i v R E. injection E as <-. apply D. lia.
  Qed.

  Lemma move_ok : forall own place s A a x na b w size al t, got own place s A na b w false size al -> A a = Some x ->
    exists own' place' s', move dbg t a size (asz x) (azf x) (s, Some na) = Ok (s', Some na) /\
      Inv nohole own' place' s' (add (del A a) na (Al size al (azf x) (moved x))).
  Proof.
    intros own place s A a x na b w size al t G H. unfold move. cbn [snd fst].
    rewrite (hok_headers _ _ _ _ _ _ _ (g_hdr _ _ _ _ _ _ _ _ _ _ G)). cbn [bind].
    pose proof (got_new _ _ _ _ _ _ _ _ _ _ G) as NEW. assert (NA : a <> na) by congruence.
    pose proof (g_in _ _ _ _ _ _ _ _ _ _ G) as GI. pose proof (g_sz _ _ _ _ _ _ _ _ _ _ G) as GS.
    pose proof (got_pos _ _ _ _ _ _ _ _ _ _ G) as GP.
    destruct (i_live _ _ _ _ _ (g_inv _ _ _ _ _ _ _ _ _ _ G) a x H) as (ob & ow & L).
    pose proof (L_sz _ _ _ _ _ _ _ L) as OS.
    set (s2 := memcpy s na a (Z.min (asz x) size)).
    assert (G2 : got own place s2 A na b w false size al).
    { apply got_bytes; auto. intros y Y. destruct (within y na _) eqn:W; auto. apply within_spec in W. lia. }
    set (c1 := fun i => if i <? Z.min (asz x) size then acont x i else None).
    destruct (grant _ _ _ _ _ _ _ _ _ _ c1 G2) as (place2 & I2).
    { intros i v R E. unfold c1 in E. destruct (Z.ltb_spec i (Z.min (asz x) size)) as [C|]; [|discriminate].
      unfold s2. st_. assert (W : within (na + i) na (Z.min (asz x) size) = true) by (apply within_spec; lia).
      rewrite W. replace (a + (na + i - na)) with (a + i) by lia. apply (L_cont _ _ _ _ _ _ _ L); auto. lia. }
    assert (H2 : add A na (Al size al false c1) a = Some x).
    { unfold add. destruct (Z.eqb_spec a na); congruence. }
    destruct (doFree_ok dbg _ _ _ _ t _ _ I2 H2) as (s3 & own3 & place3 & -> & I3 & HF). cbn [bind].
    set (A3 := del (add A na (Al size al false c1)) a) in *.
    assert (H3 : A3 na = Some (Al size al false c1)).
    { unfold A3, del, add. destruct (Z.eqb_spec na a); [congruence|]. now rewrite Z.eqb_refl. }
    destruct (azf x) eqn:ZF.
    - destruct (regot _ _ _ _ _ _ I3 H3) as (place4 & b' & w' & G4 & L4). cbn [azf asz aal] in G4.
      assert (EQ : b' = b /\ w' = w).
      { pose proof (hok_headers _ _ _ _ _ _ _ (g_hdr _ _ _ _ _ _ _ _ _ _ G4)) as E1.
        rewrite (HF na (Al size al false c1)) in E1.
        - rewrite (hok_headers _ _ _ _ _ _ _ (g_hdr _ _ _ _ _ _ _ _ _ _ G2)) in E1. injection E1 as -> ->. auto.
        - unfold add. now rewrite Z.eqb_refl.
        - auto. }
      destruct EQ as (-> & ->).
      assert (G5 := got_set _ _ _ _ _ _ _ _ _ _ true size G4 GS GI).
      set (s4 := set_hdr s3 b (Real w true size)) in *.
      set (s5 := if asz x <? size then memset s4 (na + asz x) 0 (size - asz x) else s4).
      assert (G6 : got own3 place4 s5 (del A3 na) na b w true size al).
      { unfold s5. destruct (Z.ltb_spec (asz x) size); auto. apply got_bytes; auto.
        intros y Y. destruct (within y _ _) eqn:W; auto. apply within_spec in W. lia. }
      destruct (grant _ _ _ _ _ _ _ _ _ _ (moved x) G6) as (place6 & I6).
      { intros i v R E. unfold moved in E. destruct (Z.ltb_spec i (asz x)) as [C|C].
        - assert (D3 : data s3 (na + i) = v).
          { apply (L_cont _ _ _ _ _ _ _ L4); cbn [asz acont]; auto. unfold c1.
            destruct (Z.ltb_spec i (Z.min (asz x) size)); auto. lia. }
          unfold s5. destruct (Z.ltb_spec (asz x) size); auto. st_.
          destruct (within (na + i) (na + asz x) (size - asz x)) eqn:W; auto. apply within_spec in W. lia.
        - rewrite ZF in E. injection E as <-. unfold s5. destruct (Z.ltb_spec (asz x) size); [|lia]. st_.
          assert (W : within (na + i) (na + asz x) (size - asz x) = true) by (apply within_spec; lia). now rewrite W. }
      exists own3, place6, s5. split; auto. eapply Inv_ext; [exact I6|].
      apply add_ext. intros y Y. unfold A3, del, add. destruct (Z.eqb_spec y na); [congruence|]. reflexivity.
    - destruct (regot _ _ _ _ _ _ I3 H3) as (place4 & b' & w' & G4 & L4). cbn [azf asz aal] in G4.
      destruct (grant _ _ _ _ _ _ _ _ _ _ (moved x) G4) as (place6 & I6).
      { intros i v R E. unfold moved in E. destruct (Z.ltb_spec i (asz x)) as [C|C].
        - apply (L_cont _ _ _ _ _ _ _ L4); cbn [asz acont]; auto. unfold c1.
          destruct (Z.ltb_spec i (Z.min (asz x) size)); auto. lia.
        - rewrite ZF in E. discriminate. }
      exists own3, place6, s3. split; auto. eapply Inv_ext; [exact I6|].
      apply add_ext. intros y Y. unfold A3, del, add. destruct (Z.eqb_spec y na); [congruence|]. reflexivity.
  Qed.

  (** the result of resize and realloc: a block that replaces [a] *)
  Definition re_post (A : live) (a : Z) (x : alloc) (m : result (st * option Z)) : Prop :=
    match m with
    | Ok (s', r) => exists own place a', r = Some a' /\ (a' = a \/ A a' = None) /\
        Inv nohole own place s' (add (del A a) a' x)
    | Abort => True
    | Fault => False
    end.

  Lemma call_re : forall A a n al m, alloc_post (del A a) n al m -> re_post A a (Al n al false fresh) m.
  Proof.
    intros A a n al [[s r]| |] H; cbn [alloc_post re_post] in *; auto.
    destruct H as (own & place & a' & b & w & -> & G & _). pose proof (got_new _ _ _ _ _ _ _ _ _ _ G) as N.
    destruct (grant _ _ _ _ _ _ _ _ _ _ fresh G) as (place' & I); [discriminate|].
    exists own, place', a'. split; auto. split; auto. unfold del in N. destruct (Z.eqb_spec a' a); auto.
  Qed.

  Lemma move_re : forall A a x n al m t, A a = Some x -> alloc_post A n al m ->
    re_post A a (Al n al (azf x) (moved x)) (bind m (fun r => move dbg t a n (asz x) (azf x) r)).
  Proof.
    intros A a x n al [[s r]| |] t H P; cbn [alloc_post re_post bind] in *; auto.
    destruct P as (own & place & na & b & w & -> & G & _). pose proof (got_new _ _ _ _ _ _ _ _ _ _ G) as N.
    destruct (move_ok _ _ _ _ _ _ _ _ _ _ _ t G H) as (own' & place' & s' & -> & I). cbn [re_post]. eauto 8.
  Qed.

  Lemma fits_spec : forall n d, fits n d = true -> n <= d /\ (0 < d -> n <> 0).
  Proof.
    intros n d H. unfold fits in H. apply andb_true_iff in H as (H1 & H2). split; [lia|].
    intros D ->. change ((0 * 2) mod 2 ^ 64) with 0 in H2. lia.
  Qed.

  (** keeping the block in place *)
  Lemma inplace : forall own place s A a b w z n al size z' cont s1, got own place s (del A a) a b w z n al ->
    0 <= size -> size <= dataStorage w a b ->
    s1 = set_hdr s b (Real w z' size) ->
    forall d, (forall y, ~ (a <= y < a + size) -> d y = data s y) ->
    (forall i v, 0 <= i < size -> cont i = Some v -> d (a + i) = v) ->
    exists place', Inv nohole own place' (set_data s1 d) (add (del A a) a (Al size al z' cont)).
  Proof.
    intros own place s A a b w z n al size z' cont s1 G S F -> d D C. unfold dataStorage in F.
    assert (G1 := got_set _ _ _ _ _ _ _ _ _ _ z' size G S ltac:(lia)).
    assert (G2 : got own place (set_data (set_hdr s b (Real w z' size)) d) (del A a) a b w z' size al).
    { apply got_bytes; auto. intros y Y. st_. apply D. lia. }
    eapply grant; eauto.
  Qed.

  Lemma set_data_id : forall hole own place s A, Inv hole own place (set_data s (data s)) A -> Inv hole own place s A.
  Proof. intros hole own place [] A. exact (fun H => H). Qed.

  Lemma resize_ok : forall own place s A t a x size os, Inv nohole own place s A -> A a = Some x ->
    0 <= size -> size + 16 + page < 2 ^ 64 ->
    re_post A a (Al size 16 false fresh) (resize page dbg t a size os s).
  Proof.
    intros own place s A t a x size os I H S Z. pose proof (live_pos _ _ _ _ _ _ I H) as AP. unfold resize.
    destruct (Z.eqb_spec a 0); [lia|].
    destruct (regot _ _ _ _ _ _ I H) as (place1 & b & w & G & L).
    rewrite (hok_headers _ _ _ _ _ _ _ (g_hdr _ _ _ _ _ _ _ _ _ _ G)). cbn [bind]. unfold lib.
    destruct (Z.eqb_spec (aal x) 16) as [E16|N16]; cbn [andb].
    - destruct (fits size (dataStorage w a b)) eqn:F.
      + apply fits_spec in F as (F & _). cbn [re_post].
        destruct (inplace _ _ _ _ _ _ _ _ _ _ size false fresh _ G S F eq_refl (data s)) as (place' & I');
          [auto | discriminate |].
        exists own, place', a. rewrite E16 in I'. split; [auto|split; [auto|exact I']].
      + destruct (doFree_ok dbg _ _ _ _ t _ _ I H) as (s3 & own3 & place3 & -> & I3 & _). cbn [bind].
        apply call_re, malloc_alloc, (doMalloc_ok own3 place3); auto.
    - destruct (doFree_ok dbg _ _ _ _ t _ _ I H) as (s3 & own3 & place3 & -> & I3 & _). cbn [bind].
      apply call_re, malloc_alloc, (doMalloc_ok own3 place3); auto.
  Qed.

  Lemma al_of_nz : forall al n, n <> 0 -> al_of al n = al.
  Proof. intros al n N. unfold al_of. destruct (Z.eqb_spec n 0); congruence. Qed.

  Lemma realloc_ok : forall own place s A t a x size os, Inv nohole own place s A -> A a = Some x ->
    0 <= size -> size + aal x + 16 + page < 2 ^ 64 ->
    re_post A a (Al size (al_of (aal x) size) (azf x) (moved x)) (realloc page dbg t a size os s).
  Proof.
    intros own place s A t a x size os I H S Z. pose proof (live_pos _ _ _ _ _ _ I H) as AP. unfold realloc.
    destruct (Z.eqb_spec a 0); [lia|].
    destruct (regot _ _ _ _ _ _ I H) as (place1 & b & w & G & L).
    destruct (alignOk_16 _ (L_ok _ _ _ _ _ _ _ L)) as (A1 & A2).
    rewrite (hok_headers _ _ _ _ _ _ _ (g_hdr _ _ _ _ _ _ _ _ _ _ G)). cbn [bind].
    destruct (fits size (dataStorage w a b)) eqn:F.
    - apply fits_spec in F as (F & NZ). rewrite al_of_nz.
      2:{ apply NZ. unfold dataStorage. pose proof (L_lt _ _ _ _ _ _ _ L). lia. }
      cbn [re_post].
      pose proof (inplace _ _ _ _ _ _ _ _ _ _ size (azf x) (moved x) _ G S F eq_refl) as IP.
      assert (CT : forall i v, 0 <= i < size -> i < asz x -> moved x i = Some v -> data s (a + i) = v).
      { intros i v R C E. unfold moved in E. destruct (Z.ltb_spec i (asz x)); [|lia].
        apply (L_cont _ _ _ _ _ _ _ L); auto. lia. }
      destruct (azf x) eqn:ZF; cbn [andb]; [destruct (Z.ltb_spec (asz x) size) as [C|C]|].
      + destruct (IP (fun y => if within y (a + asz x) (size - asz x) then 0 else data s y)) as (place' & I').
        * intros y Y. destruct (within y _ _) eqn:W; auto. apply within_spec in W. pose proof (L_sz _ _ _ _ _ _ _ L). lia.
        * intros i v R E. destruct (within _ _ _) eqn:W.
          { apply within_spec in W. unfold moved in E. destruct (Z.ltb_spec i (asz x)); [lia|].
            rewrite ZF in E. congruence. }
          { apply CT; auto. destruct (Z.lt_ge_cases i (asz x)); auto. exfalso.
            assert (within (a + i) (a + asz x) (size - asz x) = true) by (apply within_spec; lia). congruence. }
        * exists own, place', a. split; [auto|split; [auto|exact I']].
      + destruct (IP (data s)) as (place' & I'); [auto | intros i v R E; apply CT; auto; lia |].
        exists own, place', a. split; [auto|split; [auto|exact I']].
      + destruct (IP (data s)) as (place' & I'); [auto | |].
        * intros i v R E. destruct (Z.lt_ge_cases i (asz x)); [apply CT; auto|].
          unfold moved in E. destruct (Z.ltb_spec i (asz x)); [lia|]. rewrite ZF in E. discriminate.
        * exists own, place', a. split; [auto|split; [auto|exact I']].
    - apply move_re; auto. unfold lib. destruct (Z.leb_spec (aal x) 16) as [C|C].
      + replace (al_of (aal x) size) with 16 by (unfold al_of; destruct (size =? 0); lia).
        apply malloc_alloc, (doMalloc_ok own place); auto; lia.
      + apply (memalign_ok own place); auto.
  Qed.

  (** the recorded alignment of a live block may be replaced by another the address satisfies *)
  Lemma realign : forall own place s A a x oal off nalign, Inv nohole own place s A -> A a = Some x ->
    hdr s (a - 16) = Fake oal off -> a mod nalign = 0 -> alignOk nalign = true ->
    oal = aal x /\
    exists place', Inv nohole own place' (set_hdr s (a - 16) (Fake nalign off))
                     (add (del A a) a (Al (asz x) nalign (azf x) (acont x))).
  Proof.
    intros own place s A a x oal off nalign I H HF M OK.
    destruct (regot _ _ _ _ _ _ I H) as (place1 & b & w & G & L).
    pose proof (lv_hdr_own _ _ _ _ _ _ _ L) as (O1 & O2).
    destruct (g_hdr _ _ _ _ _ _ _ _ _ _ G) as [(E & HB & EA)|(E & HA & HB)].
    { exfalso. subst a. replace (b + 16 - 16) with b in HF by lia. congruence. }
    assert (oal = aal x /\ off = a - 16 - b) as (-> & ->) by (rewrite HF in HA; split; congruence).
    split; auto.
    assert (G1 : got own place1 (set_hdr s (a - 16) (Fake nalign (a - 16 - b))) (del A a) a b w (azf x) (asz x) nalign).
    { eapply got_change; eauto.
      - repeat split.
      - intros y Y. apply hdr_set_other. congruence.
      - right. repeat split; auto; [apply hdr_set_same|]. rewrite hdr_set_other; auto. lia.
      - eapply g_sz; eauto.
      - eapply g_in; eauto. }
    eapply grant; eauto. intros i v R C. st_. apply (L_cont _ _ _ _ _ _ _ L); auto.
  Qed.

  Lemma re_ext : forall A A' a x m, (forall y, y <> a -> A' y = A y) -> re_post A' a x m -> re_post A a x m.
  Proof.
    intros A A' a x [[s r]| |] E H; cbn [re_post] in *; auto.
    destruct H as (own & place & a' & -> & N & I). exists own, place, a'. split; auto. split.
    - destruct N as [|N]; auto. destruct (Z.eq_dec a' a); auto. right. rewrite <- E; auto.
    - eapply Inv_ext; [exact I|]. apply add_ext. intros y Y. unfold del. destruct (Z.eqb_spec y a); auto.
      symmetry. auto.
  Qed.

  Lemma live_real_or_fake : forall own place s A a x, Inv nohole own place s A -> A a = Some x ->
    (exists w z n, hdr s (a - 16) = Real w z n) \/ (exists al off, hdr s (a - 16) = Fake al off).
  Proof.
    intros own place s A a x I H. destruct (i_live _ _ _ _ _ I a x H) as (b & w & L).
    destruct (L_hdr _ _ _ _ _ _ _ L) as [(E & HB & _)|(E & HA & _)]; [left|right]; eauto.
    subst a. replace (b + 16 - 16) with b by lia. eauto.
  Qed.

  Lemma free_memalign : forall own place s A t a x al size os, Inv nohole own place s A -> A a = Some x ->
    0 <= size -> size + al + 16 + page < 2 ^ 64 ->
    re_post A a (Al size (al_of al size) false fresh)
      (bind (doFree dbg t a s) (fun s2 => memalign page dbg t al size os s2)).
  Proof.
    intros own place s A t a x al size os I H S Z.
    destruct (doFree_ok dbg _ _ _ _ t _ _ I H) as (s3 & own3 & place3 & -> & I3 & _). cbn [bind].
    apply call_re, (memalign_ok own3 place3); auto.
  Qed.

  Lemma resizeA_ok : forall own place s A t a x al size os, Inv nohole own place s A -> A a = Some x ->
    0 <= size -> 0 <= al -> size + al + 16 + page < 2 ^ 64 ->
    re_post A a (Al size (al_of al size) false fresh) (resizeA page dbg t a al size os s).
  Proof.
    intros own place s A t a x al size os I H S NA Z. pose proof (live_pos _ _ _ _ _ _ I H) as AP. unfold resizeA, lib.
    destruct (Z.eqb_spec a 0); [lia|].
    destruct (live_real_or_fake _ _ _ _ _ _ I H) as [(w & z & n' & HR)|(oal & off & HF)].
    - rewrite HR. destruct (Z.eqb_spec al 16) as [->|].
      + replace (al_of 16 size) with 16 by (unfold al_of; destruct (size =? 0); auto).
        apply (resize_ok own place s A t a x); auto. lia.
      + apply (free_memalign own place s A t a x); auto.
    - rewrite HF. destruct (alignOk al) eqn:OK; cbn [negb]; [|exact Logic.I].
      destruct (lucky a oal al) eqn:LK; [|apply (free_memalign own place s A t a x); auto].
      assert (M : a mod al = 0) by (unfold lucky in LK; lia).
      destruct (realign _ _ _ _ _ _ _ _ al I H HF M OK) as (_ & place1 & I1).
      set (x1 := Al (asz x) al (azf x) (acont x)) in *. set (s1 := set_hdr s (a - 16) (Fake al off)) in *.
      assert (H1 : add (del A a) a x1 a = Some x1) by (unfold add; now rewrite Z.eqb_refl).
      destruct (regot _ _ _ _ _ _ I1 H1) as (place2 & b & w & G & L).
      rewrite (hok_headers _ _ _ _ _ _ _ (g_hdr _ _ _ _ _ _ _ _ _ _ G)). cbn [bind].
      apply (re_ext A (add (del A a) a x1)).
      { intros y Y. unfold add, del. destruct (Z.eqb_spec y a); congruence. }
      destruct (fits size (dataStorage w a b)) eqn:F.
      + apply fits_spec in F as (F & NZ). rewrite al_of_nz.
        2:{ apply NZ. unfold dataStorage. pose proof (L_lt _ _ _ _ _ _ _ L). lia. }
        cbn [re_post].
        destruct (inplace _ _ _ _ _ _ _ _ _ _ size false fresh _ G S F eq_refl (data s1)) as (place' & I');
          [auto | discriminate |].
        exists own, place', a. split; [auto|split; [auto|exact I']].
      + apply (free_memalign own place1 s1 _ t a x1); auto.
  Qed.

  Lemma reallocA_ok : forall own place s A t a x al size os, Inv nohole own place s A -> A a = Some x ->
    0 <= size -> 0 <= al -> size + al + 16 + page < 2 ^ 64 ->
    re_post A a (Al size (al_of al size) (azf x) (moved x)) (reallocA page dbg t a al size os s).
  Proof.
    intros own place s A t a x al size os I H S NA Z. pose proof (live_pos _ _ _ _ _ _ I H) as AP. unfold reallocA, lib.
    destruct (Z.eqb_spec a 0); [lia|].
    destruct (regot _ _ _ _ _ _ I H) as (place1 & b & w & G & L).
    assert (SLOW : re_post A a (Al size (al_of al size) (azf x) (moved x))
      (do (h, w, z, n, al0) <- headers s a; do r <- memalign page dbg t al size os s; move dbg t a size n z r)).
    { rewrite (hok_headers _ _ _ _ _ _ _ (g_hdr _ _ _ _ _ _ _ _ _ _ G)). cbn [bind].
      apply move_re; auto. apply (memalign_ok own place); auto. }
    destruct (live_real_or_fake _ _ _ _ _ _ I H) as [(w' & z & n' & HR)|(oal & off & HF)].
    - rewrite HR. destruct (Z.eqb_spec al 16) as [->|]; auto.
      assert (E16 : aal x = 16).
      { destruct (L_hdr _ _ _ _ _ _ _ L) as [(E & HB & EA)|(E & HA & HB)]; auto. congruence. }
      rewrite <- E16 at 1. apply (realloc_ok own place s A t a x); auto. lia.
    - rewrite HF. destruct (alignOk al) eqn:OK; cbn [negb]; [|exact Logic.I].
      destruct (lucky a oal al) eqn:LK; auto.
      assert (M : a mod al = 0) by (unfold lucky in LK; lia).
      destruct (realign _ _ _ _ _ _ _ _ al I H HF M OK) as (_ & place2 & I1).
      set (x1 := Al (asz x) al (azf x) (acont x)) in *. set (s1 := set_hdr s (a - 16) (Fake al off)) in *.
      assert (H1 : add (del A a) a x1 a = Some x1) by (unfold add; now rewrite Z.eqb_refl).
      apply (re_ext A (add (del A a) a x1)).
      { intros y Y. unfold add, del. destruct (Z.eqb_spec y a); congruence. }
      apply (realloc_ok own place2 s1 _ t a x1); auto.
  Qed.

  Lemma write_ok : forall own place s A a x i v, Inv nohole own place s A -> A a = Some x -> 0 <= i < asz x ->
    exists place', Inv nohole own place' (memset s (a + i) v 1)
      (add A a (Al (asz x) (aal x) (azf x) (fun j => if j =? i then Some v else acont x j))).
  Proof.
    intros own place s A a x i v I H R. destruct (regot _ _ _ _ _ _ I H) as (place1 & b & w & G & L).
    pose proof (L_in _ _ _ _ _ _ _ L) as LI.
    assert (G1 : got own place1 (memset s (a + i) v 1) (del A a) a b w (azf x) (asz x) (aal x)).
    { apply got_bytes; auto. intros y Y. destruct (within y _ _) eqn:W; auto. apply within_spec in W. lia. }
    destruct (grant _ _ _ _ _ _ _ _ _ _ (fun j => if j =? i then Some v else acont x j) G1) as (place' & I').
    { intros j u J E. st_. destruct (within (a + j) (a + i) 1) eqn:W.
      - apply within_spec in W. destruct (Z.eqb_spec j i); [congruence|lia].
      - destruct (Z.eqb_spec j i) as [->|].
        + exfalso. assert (within (a + i) (a + i) 1 = true) by (apply within_spec; lia). congruence.
        + apply (L_cont _ _ _ _ _ _ _ L); auto. }
    exists place'. eapply Inv_ext; [exact I'|]. apply add_ext. intros y Y. unfold del.
    destruct (Z.eqb_spec y a); congruence.
  Qed.

  Lemma cfg_ok : forall own place s A x m u, Inv nohole own place s A ->
    m <= 4194320 -> least_class bucketSizes m u -> 0 <= x -> Inv nohole own place (set_cfg s x m u) A.
  Proof.
    intros own place s A x m u I M L X. constructor; try (st_; apply I); auto.
    - intros a y H. destruct (i_live _ _ _ _ _ I a y H) as (b & w & Q). exists b, w. apply (lv_mono own place s); auto.
    - intros t k b H. destruct (i_free _ _ _ _ _ I t k b H) as (P & B). split; auto. apply (blk_mono own own s); auto.
    - intros t k b H. destruct (i_ret _ _ _ _ _ I t k b H) as (P & B). split; auto. apply (blk_mono own own s); auto.
  Qed.

  Definition allocates (o : op) : bool :=
    match o with Free _ | Write _ _ _ | Threshold _ | TopPad _ => false | _ => true end.

  Lemma step_ok : forall own place s A t os o, Inv nohole own place s A -> usage page A o ->
    match step page dbg s t os o with
    | Ok (s', r) => is_new A o r /\ (allocates o = true -> r <> None) /\
                    exists own' place', Inv nohole own' place' s' (next A o r)
    | Abort => True
    | Fault => False
    end.
  Proof.
    intros own place s A t os o I U.
    assert (CALL : forall x m, call_post A (fun _ => x) A m ->
      match m with Ok (s', r) => exists a, r = Some a /\ A a = None /\ exists own' place', Inv nohole own' place' s' (add A a x)
                 | Abort => True | Fault => False end).
    { intros x [[s' r]| |] C; cbn [call_post] in C; auto. destruct C as (o1 & p1 & a & -> & N & J). eauto 8. }
    assert (RE : forall a x m, re_post A a x m ->
      match m with Ok (s', r) => exists a', r = Some a' /\ (a' = a \/ A a' = None) /\
                                 exists own' place', Inv nohole own' place' s' (add (del A a) a' x)
                 | Abort => True | Fault => False end).
    { intros a x [[s' r]| |] C; cbn [re_post] in C; auto. destruct C as (o1 & p1 & a' & -> & N & J). eauto 8. }
    assert (Z0 : A 0 = None).
    { destruct (A 0) as [x|] eqn:E; auto. pose proof (live_pos _ _ _ _ _ _ I E). lia. }
    assert (HD : forall a, handle A a -> a <> 0 -> exists x, A a = Some x).
    { intros a [E|E] N; [contradiction|]. destruct (A a) as [x|]; eauto. contradiction. }
    destruct o as [n|d e|al n|al d e|a n|a n|a al n|a al n|a|a i v|v|v]; cbn [step usage] in *; unfold size_ok in U.
    - pose proof (CALL _ _ (alloc_call _ _ _ _ (malloc_alloc _ _ _ (doMalloc_ok own place s A t n os I ltac:(lia) ltac:(lia))))) as C.
      destruct (doMalloc page dbg t n os s) as [[s' r]| |]; auto. destruct C as (a & -> & N & J).
      cbn [is_new next]. split; auto. split; auto. discriminate.
    - unfold calloc. destruct U as (U1 & U2 & U3). rewrite Z.mod_small by lia.
      pose proof (CALL _ _ (zeroed_call _ _ _ _ (malloc_alloc _ _ _ (doMalloc_ok own place s A t (d * e) os I ltac:(lia) ltac:(lia))))) as C.
      destruct (bind _ _) as [[s' r]| |]; auto. destruct C as (a & -> & N & J).
      cbn [is_new next]. split; auto. split; auto. discriminate.
    - pose proof (CALL _ _ (alloc_call _ _ _ _ (memalign_ok own place s A t al n os I ltac:(lia) ltac:(lia)))) as C.
      destruct (memalign page dbg t al n os s) as [[s' r]| |]; auto. destruct C as (a & -> & N & J).
      cbn [is_new next]. split; auto. split; auto. discriminate.
    - unfold cmemalign. destruct U as (U1 & U2 & U3). rewrite Z.mod_small by lia.
      pose proof (CALL _ _ (zeroed_call _ _ _ _ (memalign_ok own place s A t al (d * e) os I ltac:(lia) ltac:(lia)))) as C.
      destruct (bind _ _) as [[s' r]| |]; auto. destruct C as (a & -> & N & J).
      cbn [is_new next]. split; auto. split; auto. discriminate.
    - destruct U as (U0 & U). destruct (Z.eq_dec a 0) as [->|NZ].
      + unfold resize. cbn [Z.eqb].
        pose proof (CALL _ _ (alloc_call _ _ _ _ (malloc_alloc _ _ _ (doMalloc_ok own place s A t n os I ltac:(lia) ltac:(lia))))) as C.
        destruct (doMalloc page dbg t n os s) as [[s' r]| |]; auto. destruct C as (a & -> & N & o1 & p1 & J).
        cbn [is_new next]. split; auto. split; [discriminate|]. exists o1, p1. eapply Inv_ext; [exact J|].
        apply add_ext. intros y Y. unfold del. destruct (Z.eqb_spec y 0); congruence.
      + destruct (HD a U0 NZ) as (x & H).
        pose proof (RE _ _ _ (resize_ok own place s A t a x n os I H ltac:(lia) ltac:(lia))) as C.
        destruct (resize page dbg t a n os s) as [[s' r]| |]; auto. destruct C as (a' & -> & N & J).
        cbn [is_new next]. split; auto. split; auto. discriminate.
    - destruct U as (U0 & U). destruct (Z.eq_dec a 0) as [->|NZ].
      + unfold realloc. cbn [Z.eqb]. rewrite Z0 in U.
        pose proof (CALL _ _ (alloc_call _ _ _ _ (malloc_alloc _ _ _ (doMalloc_ok own place s A t n os I ltac:(lia) ltac:(lia))))) as C.
        destruct (doMalloc page dbg t n os s) as [[s' r]| |]; auto. destruct C as (a & -> & N & J).
        cbn [is_new next]. rewrite Z0. split; auto. split; auto. discriminate.
      + destruct (HD a U0 NZ) as (x & H). rewrite H in U.
        pose proof (RE _ _ _ (realloc_ok own place s A t a x n os I H ltac:(lia) ltac:(lia))) as C.
        destruct (realloc page dbg t a n os s) as [[s' r]| |]; auto. destruct C as (a' & -> & N & J).
        cbn [is_new next]. rewrite H. split; auto. split; auto. discriminate.
    - destruct U as (U0 & U). destruct (Z.eq_dec a 0) as [->|NZ].
      + unfold resizeA. cbn [Z.eqb].
        pose proof (CALL _ _ (alloc_call _ _ _ _ (memalign_ok own place s A t al n os I ltac:(lia) ltac:(lia)))) as C.
        destruct (memalign page dbg t al n os s) as [[s' r]| |]; auto. destruct C as (a & -> & N & o1 & p1 & J).
        cbn [is_new next]. split; auto. split; [discriminate|]. exists o1, p1. eapply Inv_ext; [exact J|].
        apply add_ext. intros y Y. unfold del. destruct (Z.eqb_spec y 0); congruence.
      + destruct (HD a U0 NZ) as (x & H).
        pose proof (RE _ _ _ (resizeA_ok own place s A t a x al n os I H ltac:(lia) ltac:(lia) ltac:(lia))) as C.
        destruct (resizeA page dbg t a al n os s) as [[s' r]| |]; auto. destruct C as (a' & -> & N & J).
        cbn [is_new next]. split; auto. split; auto. discriminate.
    - destruct U as (U0 & U). destruct (Z.eq_dec a 0) as [->|NZ].
      + unfold reallocA. cbn [Z.eqb].
        pose proof (CALL _ _ (alloc_call _ _ _ _ (memalign_ok own place s A t al n os I ltac:(lia) ltac:(lia)))) as C.
        destruct (memalign page dbg t al n os s) as [[s' r]| |]; auto. destruct C as (a & -> & N & J).
        cbn [is_new next]. rewrite Z0. split; auto. split; auto. discriminate.
      + destruct (HD a U0 NZ) as (x & H).
        pose proof (RE _ _ _ (reallocA_ok own place s A t a x al n os I H ltac:(lia) ltac:(lia) ltac:(lia))) as C.
        destruct (reallocA page dbg t a al n os s) as [[s' r]| |]; auto. destruct C as (a' & -> & N & J).
        cbn [is_new next]. rewrite H. split; auto. split; auto. discriminate.
    - destruct (Z.eqb_spec a 0) as [->|NZ].
      + cbn [is_new next]. split; auto. split; [discriminate|]. exists own, place. eapply Inv_ext; [exact I|].
        intros y. unfold del. destruct (Z.eqb_spec y 0); congruence.
      + destruct (HD a U NZ) as (x & H).
        destruct (doFree_ok dbg _ _ _ _ t _ _ I H) as (s3 & own3 & place3 & -> & I3 & _). cbn [bind is_new next].
        split; auto. split; [discriminate|]. eauto.
    - destruct U as (x & H & R). cbn [is_new next]. rewrite H. split; auto. split; [discriminate|].
      destruct (write_ok own place s A a x i v I H R) as (place' & J). eauto.
    - destruct (i_cfg _ _ _ _ _ I) as (C1 & C2 & C3).
      destruct (v <? 0); [cbn [is_new next]; split; auto; split; [discriminate|eauto]|].
      destruct (setMmapStart page v) as [m|] eqn:E; cbn [is_new next]; (split; auto; split; [discriminate|]); eauto.
      destruct (setMmap_ok page v ltac:(lia) m E) as (Q1 & Q2). exists own, place. apply cfg_ok; auto. lia.
    - destruct (i_cfg _ _ _ _ _ I) as (C1 & C2 & C3).
      destruct (Z.ltb_spec v 0); [cbn [is_new next]; split; auto; split; [discriminate|eauto]|].
      cbn [is_new next]. split; auto. split; [discriminate|]. exists own, place. apply cfg_ok; auto.
      pose proof (ceiling2_ok v page ltac:(lia)). lia.
  Qed.

  Lemma init_ok : forall b x m u, 0 < b -> b mod 16 = 0 -> 0 <= x -> setMmapStart page m = Some u ->
    Inv nohole (fun _ => TN) (fun _ => PHold) (init b x m u) none.
  Proof.
    intros b x m u B1 B2 X M. destruct (setMmap_ok page m ltac:(lia) u M) as (Q1 & Q2).
    unfold init. constructor; cbn [heapBegin heapEnd heapRem expand mmapStart maxUsed buf res free ret hdr data maps].
    - discriminate.
    - intros t k c [].
    - constructor.
    - intros t k c [].
    - constructor.
    - intros t _. repeat split; lia.
    - repeat split; auto; lia.
    - congruence.
    - repeat split; auto; try lia; apply Q2.
  Qed.
End Alloc.
