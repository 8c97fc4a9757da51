(** The allocator's invariant: every byte has one owner. *)
From Coq Require Import List ZArith Lia Bool Arith ZifyBool.
From Verif.HeapBuckets Require Import Model Spec Proofs.
From Verif.HeapAlloc Require Import Model Spec.
Import ListNotations.
Local Open Scope Z_scope.

(** owner of a byte: a block, the reserve of a manager, the master's remaining storage, nobody *)
Inductive tag := TB (b : Z) | TR (t : nat) | TM | TN.
(** where a block is: in the hands of an operation, live with user address [a], on a free list, on a return list *)
Inductive pl := PHold | PLive (a : Z) | PFree (t k : nat) | PRet (t k : nat).

Definition wok (s : st) (b : Z) (w : word) : Prop :=
  match w with Home _ k => (k < 91)%nat | Map n => In (b, n) (maps s) /\ 32 <= n end.
Definition owned (own : Z -> tag) (b n : Z) : Prop := forall y, b <= y < b + n -> own y = TB b.
Record blk (own : Z -> tag) (s : st) (b : Z) (w : word) : Prop := Blk {
  B_pos : 0 < b; B_al : b mod 16 = 0; B_own : owned own b (bsize w); B_w : wok s b w }.
Definition hok (s : st) (a b : Z) (w : word) (z : bool) (n al : Z) : Prop :=
  (a = b + 16 /\ hdr s b = Real w z n /\ al = 16) \/
  (b + 32 <= a /\ hdr s (a - 16) = Fake al (a - 16 - b) /\ hdr s b = Real w z n).
Record lv (own : Z -> tag) (place : Z -> pl) (s : st) (a : Z) (x : alloc) (b : Z) (w : word) : Prop := Lv {
  L_blk : blk own s b w;
  L_place : place b = PLive a;
  L_hdr : hok s a b w (azf x) (asz x) (aal x);
  L_sz : 0 <= asz x;
  L_in : a + asz x <= b + bsize w;
  L_lt : a < b + bsize w;
  L_al : a mod aal x = 0;
  L_ok : alignOk (aal x) = true;
  L_cont : forall i v, 0 <= i < asz x -> acont x i = Some v -> data s (a + i) = v }.

Record Inv (hole : nat -> bool) (own : Z -> tag) (place : Z -> pl) (s : st) (A : live) : Prop := MkInv {
  i_live : forall a x, A a = Some x -> exists b w, lv own place s a x b w;
  i_free : forall t k b, In b (free s t k) -> place b = PFree t k /\ blk own s b (Home t k);
  i_fnd : forall t k, NoDup (free s t k);
  i_ret : forall t k b, In b (ret s t k) -> place b = PRet t k /\ blk own s b (Home t k);
  i_rnd : forall t k, NoDup (ret s t k);
  i_res : forall t, hole t = false ->
    0 <= res s t /\ res s t mod 16 = 0 /\ buf s t mod 16 = 0 /\ (0 < res s t -> 0 < buf s t) /\
    forall y, buf s t <= y < buf s t + res s t -> own y = TR t;
  i_mst : 0 < heapBegin s <= heapEnd s /\ heapEnd s mod 16 = 0 /\ 0 <= heapRem s /\ heapRem s mod 16 = 0 /\
    forall y, heapEnd s <= y < heapEnd s + heapRem s -> own y = TM;
  i_sys : forall y, own y <> TN ->
    heapBegin s <= y < heapEnd s + heapRem s \/ exists m, In m (maps s) /\ fst m <= y < fst m + snd m;
  i_cfg : mmapStart s <= 4194320 /\ least_class bucketSizes (mmapStart s) (maxUsed s) /\ 0 <= expand s }.

Definition nohole : nat -> bool := fun _ => false.
Definition hole1 (t : nat) : nat -> bool := fun j => Nat.eqb j t.
Definition updz {A} (f : Z -> A) (i : Z) (a : A) : Z -> A := fun j => if j =? i then a else f j.

Lemma updz_same : forall A (f : Z -> A) i a, updz f i a i = a.
Proof. intros. unfold updz. now rewrite Z.eqb_refl. Qed.
Lemma updz_other : forall A (f : Z -> A) i a j, j <> i -> updz f i a j = f j.
Proof. intros. unfold updz. destruct (Z.eqb_spec j i); congruence. Qed.

Lemma bs_range : forall k, (k < 91)%nat -> 32 <= bs k <= 4194320.
Proof.
  intros k K. unfold bs. apply (sizes_range k). apply nth_error_nth'. exact K.
Qed.

Lemma bs_al : forall k, (k < 91)%nat -> bs k mod 16 = 0.
Proof.
  intros k K. assert (H : In (bs k) bucketSizes) by (unfold bs; apply nth_In; exact K).
  assert (F : forallb (fun b => b mod 16 =? 0) bucketSizes = true) by (vm_compute; reflexivity).
  rewrite forallb_forall in F. apply Z.eqb_eq. apply F. exact H.
Qed.

Lemma wok_size : forall s b w, wok s b w -> 32 <= bsize w.
Proof. intros s b [t k|n] H; cbn [wok bsize] in *; [apply (bs_range k H)|apply H]. Qed.

Lemma blk_self : forall own s b w, blk own s b w -> own b = TB b.
Proof. intros own s b w [P Q O W]. apply O. apply wok_size in W. lia. Qed.

Lemma blk_mono : forall own own' s s' b w, blk own s b w ->
  (forall y, own y = TB b -> own' y = TB b) ->
  (forall n, In (b, n) (maps s) -> In (b, n) (maps s')) -> blk own' s' b w.
Proof.
  intros own own' s s' b w [P Q O W] H M. constructor; auto.
  - intros y Y. auto.
  - destruct w; cbn [wok] in *; auto. destruct W; split; auto.
Qed.

(** the header positions of a live block belong to it *)
Lemma lv_hdr_own : forall own place s a x b w, lv own place s a x b w -> own (a - 16) = TB b /\ own b = TB b.
Proof.
  intros own place s a x b w L. destruct L as [B _ H S I LT _ _ _].
  pose proof (wok_size _ _ _ (B_w _ _ _ _ B)). split; [|eapply blk_self; eauto].
  apply (B_own _ _ _ _ B). destruct H as [(E & _)|(E & _)]; lia.
Qed.

Lemma lv_data_own : forall own place s a x b w y, lv own place s a x b w -> a <= y < a + asz x -> own y = TB b.
Proof.
  intros own place s a x b w y L Y. destruct L as [B _ H S I LT _ _ _]. apply (B_own _ _ _ _ B).
  destruct H as [(E & _)|(E & _)]; lia.
Qed.

Lemma lv_pos : forall own place s a x b w, lv own place s a x b w -> 0 < a /\ b + 16 <= a.
Proof.
  intros own place s a x b w L. destruct L as [B _ H S I LT _ _ _]. pose proof (B_pos _ _ _ _ B).
  destruct H as [(E & _)|(E & _)]; lia.
Qed.

Lemma lv_mono : forall own place s own' place' s' a x b w, lv own place s a x b w ->
  (forall y, own y = TB b -> own' y = TB b) -> place' b = place b ->
  (forall y, own y = TB b -> hdr s' y = hdr s y) ->
  (forall y, own y = TB b -> data s' y = data s y) ->
  (forall n, In (b, n) (maps s) -> In (b, n) (maps s')) -> lv own' place' s' a x b w.
Proof.
  intros own place s own' place' s' a x b w L O P H D M.
  pose proof (lv_hdr_own _ _ _ _ _ _ _ L) as (H1 & H2).
  pose proof (fun y => lv_data_own _ _ _ _ _ _ _ y L) as H3.
  destruct L as [B P0 H0 S I LT Q K C]. constructor; auto.
  - eapply blk_mono; eauto.
  - congruence.
  - unfold hok in *. rewrite (H b), (H (a - 16)) by auto. exact H0.
  - intros i v R E. rewrite D; auto. apply H3. lia.
Qed.

Lemma Inv_ext : forall hole own place s A A', Inv hole own place s A -> (forall y, A' y = A y) -> Inv hole own place s A'.
Proof. intros hole own place s A A' [] E. constructor; auto. intros a x H. rewrite E in H. auto. Qed.

(** everything but block [c] is kept by a change confined to [c] *)
Section Frame.
  Variables (hole : nat -> bool) (own own' : Z -> tag) (place place' : Z -> pl) (s s' : st) (A : live) (c : Z).
  Hypothesis I : Inv hole own place s A.
  Hypothesis HO : forall b y, b <> c -> own y = TB b -> own' y = TB b.
  Hypothesis HP : forall b, b <> c -> own b = TB b -> place' b = place b.
  Hypothesis HH : forall b y, b <> c -> own y = TB b -> hdr s' y = hdr s y.
  Hypothesis HD : forall b y, b <> c -> own y = TB b -> data s' y = data s y.
  Hypothesis HM : forall b n, b <> c -> In (b, n) (maps s) -> In (b, n) (maps s').

  Lemma keep_lv : forall a x b w, lv own place s a x b w -> b <> c -> lv own' place' s' a x b w.
  Proof using HO HP HH HD HM.
    intros a x b w L N. pose proof (lv_hdr_own _ _ _ _ _ _ _ L) as (_ & O).
    apply (lv_mono own place s); eauto.
  Qed.
  Lemma keep_live : (own c <> TB c \/ forall a, place c <> PLive a) ->
    forall a x, A a = Some x -> exists b w, lv own' place' s' a x b w.
  Proof using I HO HP HH HD HM.
    intros N a x H. destruct (i_live _ _ _ _ _ I a x H) as (b & w & L). exists b, w.
    apply keep_lv; auto. intros ->. destruct N as [N|N].
    - apply N. exact (proj2 (lv_hdr_own _ _ _ _ _ _ _ L)).
    - apply (N a). exact (L_place _ _ _ _ _ _ _ L).
  Qed.
  Lemma keep_blk : forall b w, blk own s b w -> b <> c -> blk own' s' b w /\ place' b = place b.
  Proof using HO HP HM.
    intros b w B N. pose proof (blk_self _ _ _ _ B) as O.
    split; [apply (blk_mono own own' s s'); eauto | auto].
  Qed.
  Lemma keep_free : (own c <> TB c \/ forall t k, place c <> PFree t k) ->
    forall t k b, In b (free s t k) -> place' b = PFree t k /\ blk own' s' b (Home t k).
  Proof using I HO HP HM.
    intros N t k b H. destruct (i_free _ _ _ _ _ I t k b H) as (P & B).
    destruct (keep_blk b _ B) as (B' & P'); [|split; auto; congruence].
    intros ->. destruct N as [N|N]; [apply N; eapply blk_self; eauto | eapply N; eauto].
  Qed.
  Lemma keep_ret : (own c <> TB c \/ forall t k, place c <> PRet t k) ->
    forall t k b, In b (ret s t k) -> place' b = PRet t k /\ blk own' s' b (Home t k).
  Proof using I HO HP HM.
    intros N t k b H. destruct (i_ret _ _ _ _ _ I t k b H) as (P & B).
    destruct (keep_blk b _ B) as (B' & P'); [|split; auto; congruence].
    intros ->. destruct N as [N|N]; [apply N; eapply blk_self; eauto | eapply N; eauto].
  Qed.
End Frame.

(** the parts of the state outside headers and bytes *)
Definition same (s s' : st) : Prop :=
  heapBegin s' = heapBegin s /\ heapEnd s' = heapEnd s /\ heapRem s' = heapRem s /\ expand s' = expand s /\
  mmapStart s' = mmapStart s /\ maxUsed s' = maxUsed s /\ buf s' = buf s /\ res s' = res s /\ free s' = free s /\
  ret s' = ret s /\ maps s' = maps s.

Lemma same_refl : forall s, same s s.
Proof. intros s. repeat split. Qed.
Lemma same_trans : forall a b c, same a b -> same b c -> same a c.
Proof. unfold same. intuition congruence. Qed.

(** writing the headers or bytes of a block that is in the hands of an operation *)
Lemma hold_frame : forall hole own place s A s' c, Inv hole own place s A -> place c = PHold -> same s s' ->
  (forall y, own y <> TB c -> hdr s' y = hdr s y) -> (forall y, own y <> TB c -> data s' y = data s y) ->
  Inv hole own place s' A.
Proof.
  intros hole own place s A s' c I P (S1 & S2 & S3 & S4 & S5 & S6 & S7 & S8 & S9 & S10 & S11) H D.
  assert (HO : forall b y, b <> c -> own y = TB b -> own y = TB b) by auto.
  assert (HP : forall b, b <> c -> own b = TB b -> place b = place b) by auto.
  assert (HH : forall b y, b <> c -> own y = TB b -> hdr s' y = hdr s y) by (intros; apply H; congruence).
  assert (HD : forall b y, b <> c -> own y = TB b -> data s' y = data s y) by (intros; apply D; congruence).
  assert (HM : forall b n, b <> c -> In (b, n) (maps s) -> In (b, n) (maps s')) by (intros; rewrite S11; auto).
  constructor; try (rewrite S1, S2, S3); try rewrite S4, S5, S6; try rewrite S7, S8; try rewrite S9; try rewrite S10;
    try rewrite S11; try apply I.
  - apply (keep_live hole own own place place s s' A c); auto. right. congruence.
  - apply (keep_free hole own own place place s s' A c); auto. right. congruence.
  - apply (keep_ret hole own own place place s s' A c); auto. right. congruence.
Qed.

(** a live block passes into the hands of an operation *)
Lemma release : forall hole own place s A a x, Inv hole own place s A -> A a = Some x ->
  exists b w, lv own place s a x b w /\ Inv hole own (updz place b PHold) s (del A a).
Proof.
  intros hole own place s A a x I H. destruct (i_live _ _ _ _ _ I a x H) as (b & w & L).
  exists b, w. split; auto. pose proof (L_place _ _ _ _ _ _ _ L) as P.
  constructor; try apply I.
  - intros a' x' H'. unfold del in H'. destruct (Z.eqb_spec a' a) as [|N]; [discriminate|].
    destruct (i_live _ _ _ _ _ I a' x' H') as (b' & w' & L'). exists b', w'.
    apply (lv_mono own place s); auto. apply updz_other. intros ->.
    pose proof (L_place _ _ _ _ _ _ _ L'). congruence.
  - intros t k b' F. destruct (i_free _ _ _ _ _ I t k b' F) as (Q & B). split; auto.
    rewrite updz_other; auto. congruence.
  - intros t k b' F. destruct (i_ret _ _ _ _ _ I t k b' F) as (Q & B). split; auto.
    rewrite updz_other; auto. congruence.
Qed.

(** what an operation has in hand when it is about to give block [b] to the program at address [a] *)
Record got (own : Z -> tag) (place : Z -> pl) (s : st) (A : live) (a b : Z) (w : word) (z : bool) (n al : Z) : Prop := Got {
  g_inv : Inv nohole own place s A;
  g_hold : place b = PHold;
  g_blk : blk own s b w;
  g_hdr : hok s a b w z n al;
  g_sz : 0 <= n;
  g_in : a + n <= b + bsize w;
  g_lt : a < b + bsize w;
  g_al : a mod al = 0;
  g_ok : alignOk al = true }.

Lemma got_new : forall own place s A a b w z n al, got own place s A a b w z n al -> A a = None.
Proof.
  intros own place s A a b w z n al G. destruct (A a) as [x|] eqn:E; auto. exfalso.
  destruct (i_live _ _ _ _ _ (g_inv _ _ _ _ _ _ _ _ _ _ G) a x E) as (b' & w' & L).
  pose proof (lv_hdr_own _ _ _ _ _ _ _ L) as (H1 & _).
  assert (own (a - 16) = TB b).
  { pose proof (g_blk _ _ _ _ _ _ _ _ _ _ G) as B. apply (B_own _ _ _ _ B).
    pose proof (g_lt _ _ _ _ _ _ _ _ _ _ G).
    destruct (g_hdr _ _ _ _ _ _ _ _ _ _ G) as [(Q & _)|(Q & _)]; lia. }
  assert (b' = b) by congruence. subst b'.
  pose proof (L_place _ _ _ _ _ _ _ L). pose proof (g_hold _ _ _ _ _ _ _ _ _ _ G). congruence.
Qed.

Lemma grant : forall own place s A a b w z n al cont, got own place s A a b w z n al ->
  (forall i v, 0 <= i < n -> cont i = Some v -> data s (a + i) = v) ->
  exists place', Inv nohole own place' s (add A a (Al n al z cont)).
Proof.
  intros own place s A a b w z n al cont G C. pose proof (got_new _ _ _ _ _ _ _ _ _ _ G) as N.
  destruct G as [I P B H S IN LT AL OK]. exists (updz place b (PLive a)).
  constructor; try apply I.
  - intros a' x' H'. unfold add in H'. destruct (Z.eqb_spec a' a) as [->|NE].
    + injection H' as <-. exists b, w. constructor; cbn [asz aal azf acont]; auto. apply updz_same.
    + destruct (i_live _ _ _ _ _ I a' x' H') as (b' & w' & L'). exists b', w'.
      apply (lv_mono own place s); auto. apply updz_other. intros ->.
      pose proof (L_place _ _ _ _ _ _ _ L'). congruence.
  - intros t k b' F. destruct (i_free _ _ _ _ _ I t k b' F) as (Q & B'). split; auto.
    rewrite updz_other; auto. congruence.
  - intros t k b' F. destruct (i_ret _ _ _ _ _ I t k b' F) as (Q & B'). split; auto.
    rewrite updz_other; auto. congruence.
Qed.

(** a live block back in hand *)
Lemma regot : forall own place s A a x, Inv nohole own place s A -> A a = Some x ->
  exists place' b w, got own place' s (del A a) a b w (azf x) (asz x) (aal x) /\ lv own place s a x b w.
Proof.
  intros own place s A a x I H. destruct (release _ _ _ _ _ _ _ I H) as (b & w & L & I').
  exists (updz place b PHold), b, w. split; auto. destruct L. constructor; auto. apply updz_same.
Qed.

(** changing headers and bytes of a block in hand *)
Lemma got_change : forall own place s A a b w z n al s' z' n' al', got own place s A a b w z n al -> same s s' ->
  (forall y, own y <> TB b -> hdr s' y = hdr s y) -> (forall y, own y <> TB b -> data s' y = data s y) ->
  hok s' a b w z' n' al' -> 0 <= n' -> a + n' <= b + bsize w -> a mod al' = 0 -> alignOk al' = true ->
  got own place s' A a b w z' n' al'.
Proof.
  intros own place s A a b w z n al s' z' n' al' [I P B H S IN LT AL OK] SM HH HD H' S' IN' AL' OK'.
  constructor; auto.
  - apply (hold_frame nohole own place s A s' b); auto.
  - apply (blk_mono own own s s'); auto. destruct SM as (_ & _ & _ & _ & _ & _ & _ & _ & _ & _ & M). rewrite M. auto.
Qed.

Lemma hok_headers : forall s a b w z n al, hok s a b w z n al -> headers s a = Ok (b, w, z, n, al).
Proof.
  intros s a b w z n al [(-> & H & ->)|(L & F & H)]; unfold headers, lib.
  - replace (b + 16 - 16) with b by lia. now rewrite H.
  - rewrite F. replace (a - 16 - (a - 16 - b)) with b by lia. now rewrite H.
Qed.

(** positions of a block in hand *)
Lemma got_own : forall own place s A a b w z n al y, got own place s A a b w z n al ->
  b <= y < b + bsize w -> own y = TB b.
Proof. intros own place s A a b w z n al y G Y. apply (B_own _ _ _ _ (g_blk _ _ _ _ _ _ _ _ _ _ G)). lia. Qed.

Lemma got_pos : forall own place s A a b w z n al, got own place s A a b w z n al -> 0 < b /\ b + 16 <= a /\ 32 <= bsize w.
Proof.
  intros own place s A a b w z n al G. pose proof (g_blk _ _ _ _ _ _ _ _ _ _ G) as [P _ _ W].
  apply wok_size in W. destruct (g_hdr _ _ _ _ _ _ _ _ _ _ G) as [(Q & _)|(Q & _)]; lia.
Qed.

Lemma within_spec : forall x a n, within x a n = true <-> a <= x < a + n.
Proof. intros. unfold within. lia. Qed.
