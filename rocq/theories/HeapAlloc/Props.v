From Coq Require Import List ZArith Lia Bool Arith.
From Verif.HeapBuckets Require Import Model Spec Proofs.
From Verif.HeapAlloc Require Import Model Spec Inv Ops Proofs.
Import ListNotations.
Local Open Scope Z_scope.

(** The histories: any threads, any addresses from mmap, any accepted initial threshold and expansion, any proper calls;
    [A] is what the program knows (its live blocks). *)
Inductive hist (page : Z) (dbg : bool) : st -> live -> Prop :=
| h_init : forall b x m u, 0 < b -> b mod 16 = 0 -> 0 <= x -> setMmapStart page m = Some u ->
    hist page dbg (init b x m u) none
| h_step : forall s A t os o s' r, hist page dbg s A -> usage page A o -> step page dbg s t os o = Ok (s', r) ->
    hist page dbg s' (next A o r).

(** a page is a multiple of 16 bytes, and not a single granule *)
Definition page_ok (page : Z) : Prop := 32 <= page /\ page mod 16 = 0.

Lemma hist_inv : forall page dbg s A, page_ok page -> hist page dbg s A -> exists own place, Inv nohole own place s A.
Proof.
  intros page dbg s A (P1 & P2) H. induction H as [b x m u B1 B2 X M|s A t os o s' r H IH U E].
  - eexists _, _. apply (init_ok page); eauto.
  - destruct IH as (own & place & I). pose proof (step_ok page dbg P1 P2 own place s A t os o I U) as S.
    rewrite E in S. apply S.
Qed.

Lemma live_tag : forall own place s A a x, Inv nohole own place s A -> A a = Some x ->
  exists b w, lv own place s a x b w /\ forall y, b <= y < b + bsize w -> own y = TB b.
Proof.
  intros own place s A a x I H. destruct (i_live _ _ _ _ _ I a x H) as (b & w & L). exists b, w. split; auto.
  exact (B_own _ _ _ _ (L_blk _ _ _ _ _ _ _ L)).
Qed.

Lemma diff_block : forall own place s a x b w a' x' b' w', a <> a' ->
  lv own place s a x b w -> lv own place s a' x' b' w' -> b <> b'.
Proof.
  intros own place s a x b w a' x' b' w' N L L' ->.
  pose proof (L_place _ _ _ _ _ _ _ L). pose proof (L_place _ _ _ _ _ _ _ L'). congruence.
Qed.

(** C19: no byte belongs to two live blocks. *)
Theorem C19_no_overlap : forall page dbg s A a x a' x' y, page_ok page -> hist page dbg s A ->
  A a = Some x -> A a' = Some x' -> a <> a' -> a <= y < a + asz x -> ~ (a' <= y < a' + asz x').
Proof.
  intros page dbg s A a x a' x' y P H E E' N R R'. destruct (hist_inv _ _ _ _ P H) as (own & place & I).
  destruct (live_tag _ _ _ _ _ _ I E) as (b & w & L & _). destruct (live_tag _ _ _ _ _ _ I E') as (b' & w' & L' & _).
  pose proof (lv_data_own _ _ _ _ _ _ _ y L R). pose proof (lv_data_own _ _ _ _ _ _ _ y L' R').
  apply (diff_block _ _ _ _ _ _ _ _ _ _ _ N L L'). congruence.
Qed.
Print Assumptions C19_no_overlap.

(** Every live block has an address that is not null and is a multiple of its alignment, which is a power of two and at
    least the minimum. *)
Theorem C19_aligned : forall page dbg s A a x, page_ok page -> hist page dbg s A -> A a = Some x ->
  0 < a /\ a mod aal x = 0 /\ a mod 16 = 0 /\ 16 <= aal x.
Proof.
  intros page dbg s A a x P H E. destruct (hist_inv _ _ _ _ P H) as (own & place & I).
  destruct (live_tag _ _ _ _ _ _ I E) as (b & w & L & _). pose proof (L_al _ _ _ _ _ _ _ L) as M.
  destruct (alignOk_16 _ (L_ok _ _ _ _ _ _ _ L)) as (A1 & A2). repeat split; auto.
  - apply (lv_pos _ _ _ _ _ _ _ L).
  - apply Z.mod_divide; [lia|]. apply Z.mod_divide in M; [|lia]. apply Z.mod_divide in A2; [|lia].
    eapply Z.divide_trans; eauto.
Qed.
Print Assumptions C19_aligned.

(** Every byte of every live block is storage obtained from the system: the heap grown by sbrk or a mapping that has not
    been returned. *)
Theorem C19_inside_system_storage : forall page dbg s A a x y, page_ok page -> hist page dbg s A -> A a = Some x ->
  a <= y < a + asz x ->
  heapBegin s <= y < heapEnd s + heapRem s \/ exists m, In m (maps s) /\ fst m <= y < fst m + snd m.
Proof.
  intros page dbg s A a x y P H E R. destruct (hist_inv _ _ _ _ P H) as (own & place & I).
  destruct (live_tag _ _ _ _ _ _ I E) as (b & w & L & _). apply (i_sys _ _ _ _ _ I).
  rewrite (lv_data_own _ _ _ _ _ _ _ y L R). discriminate.
Qed.
Print Assumptions C19_inside_system_storage.

(** No bookkeeping lies in a byte the program was given: neither the header in front of a live block, nor the real header
    an alignment header points to, nor anything of a block waiting on a free or return list, nor storage a manager or the
    master still holds. *)
Definition header_at (s : st) (A : live) (h : Z) : Prop :=
  exists a x, A a = Some x /\ (h = a - 16 \/ exists w z n al, headers s a = Ok (h, w, z, n, al)).
Theorem C19_bookkeeping : forall page dbg s A a x y, page_ok page -> hist page dbg s A -> A a = Some x ->
  a <= y < a + asz x ->
  (forall h, header_at s A h -> ~ (h <= y < h + 16)) /\
  (forall t k h, In h (free s t k) \/ In h (ret s t k) -> ~ (h <= y < h + bs k)) /\
  (forall t, ~ (buf s t <= y < buf s t + res s t)) /\ ~ (heapEnd s <= y < heapEnd s + heapRem s).
Proof.
  intros page dbg s A a x y P H E R. destruct (hist_inv _ _ _ _ P H) as (own & place & I).
  destruct (live_tag _ _ _ _ _ _ I E) as (b & w & L & _).
  pose proof (lv_data_own _ _ _ _ _ _ _ y L R) as O. pose proof (lv_pos _ _ _ _ _ _ _ L) as LP.
  split; [|split; [|split]].
  - intros h (a' & x' & E' & HD) Y. destruct (live_tag _ _ _ _ _ _ I E') as (b' & w' & L' & T').
    pose proof (lv_pos _ _ _ _ _ _ _ L') as LP'. pose proof (L_lt _ _ _ _ _ _ _ L') as LT'.
    assert (HB : b' <= y < a').
    { pose proof (L_hdr _ _ _ _ _ _ _ L') as HK. destruct HD as [->|(w0 & z0 & n0 & al0 & HD)]; [lia|].
      rewrite (hok_headers _ _ _ _ _ _ _ HK) in HD. injection HD as <- _ _ _ _. lia. }
    assert (O' : own y = TB b') by (apply T'; lia).
    destruct (Z.eq_dec a' a) as [->|N]; [lia|]. apply (diff_block _ _ _ _ _ _ _ _ _ _ _ N L' L). congruence.
  - intros t k h HIN Y.
    assert (B : (exists p, place h = p /\ forall a', p <> PLive a') /\ blk own s h (Home t k)).
    { destruct HIN as [HIN|HIN]; [destruct (i_free _ _ _ _ _ I t k h HIN) as (Q & B)|
        destruct (i_ret _ _ _ _ _ I t k h HIN) as (Q & B)]; split; auto; eexists; split; eauto; discriminate. }
    destruct B as ((p & Q & NP) & B). pose proof (B_own _ _ _ _ B y Y). pose proof (L_place _ _ _ _ _ _ _ L).
    apply (NP a). congruence.
  - intros t Y. destruct (i_res _ _ _ _ _ I t eq_refl) as (_ & _ & _ & _ & T). specialize (T y Y). congruence.
  - intros Y. destruct (i_mst _ _ _ _ _ I) as (_ & _ & _ & _ & T). specialize (T y Y). congruence.
Qed.
Print Assumptions C19_bookkeeping.

(** Contents: every byte holds the value the program last stored, or the zero it was promised, whatever other calls were
    made by whatever threads in between. *)
Theorem C19_contents : forall page dbg s A a x i v, page_ok page -> hist page dbg s A -> A a = Some x ->
  0 <= i < asz x -> acont x i = Some v -> data s (a + i) = v.
Proof.
  intros page dbg s A a x i v P H E R C. destruct (hist_inv _ _ _ _ P H) as (own & place & I).
  destruct (live_tag _ _ _ _ _ _ I E) as (b & w & L & _). apply (L_cont _ _ _ _ _ _ _ L); auto.
Qed.
Print Assumptions C19_contents.

(** Progress: a proper call is never a fault inside the allocator; unless the system refuses storage (or the alignment is
    not valid) it is granted, at an address no other live block has. *)
Theorem C19_granted : forall page dbg s A t os o, page_ok page -> hist page dbg s A -> usage page A o ->
  step page dbg s t os o <> Fault /\
  forall s' r, step page dbg s t os o = Ok (s', r) -> is_new A o r /\ (allocates o = true -> r <> None).
Proof.
  intros page dbg s A t os o P H U. destruct (hist_inv _ _ _ _ P H) as (own & place & I). destruct P as (P1 & P2).
  pose proof (step_ok page dbg P1 P2 own place s A t os o I U) as S.
  destruct (step page dbg s t os o) as [[s' r]| |]; [|split; discriminate|contradiction].
  split; [discriminate|]. intros s1 r1 E. injection E as <- <-. tauto.
Qed.
Print Assumptions C19_granted.

(** Reallocation, with or without a new alignment, keeps the common prefix, and a zero-filled block grows by zeros. *)
Theorem C19_realloc : forall page dbg s A t os o a n x s' a', page_ok page -> hist page dbg s A ->
  o = Realloc a n \/ (exists al, o = ReallocA a al n) -> A a = Some x -> usage page A o ->
  step page dbg s t os o = Ok (s', Some a') ->
  (forall i v, 0 <= i < Z.min (asz x) n -> acont x i = Some v -> data s' (a' + i) = v) /\
  (azf x = true -> forall i, asz x <= i < n -> data s' (a' + i) = 0).
Proof.
  intros page dbg s A t os o a n x s' a' P H O E U S.
  pose proof (h_step _ _ _ _ _ _ _ _ _ H U S) as H'.
  assert (Q : exists al, next A o (Some a') a' = Some (Al n al (azf x) (moved x))).
  { destruct O as [->|(al & ->)]; cbn [next]; rewrite E; unfold add; rewrite Z.eqb_refl; eauto. }
  destruct Q as (al & Q).
  assert (X : 0 <= asz x).
  { destruct (hist_inv _ _ _ _ P H) as (own & place & I). destruct (live_tag _ _ _ _ _ _ I E) as (b & w & L & _).
    apply (L_sz _ _ _ _ _ _ _ L). }
  split.
  - intros i v R C. apply (C19_contents _ _ _ _ _ _ i v P H' Q); cbn [asz acont]; [lia|]. unfold moved.
    destruct (Z.ltb_spec i (asz x)); auto. lia.
  - intros Z i R. apply (C19_contents _ _ _ _ _ _ i 0 P H' Q); cbn [asz acont]; [lia|]. unfold moved.
    destruct (Z.ltb_spec i (asz x)); [lia|]. now rewrite Z.
Qed.
Print Assumptions C19_realloc.

(** The requested alignment is honoured by every aligned call for a non-empty block ... *)
Theorem C19_requested_alignment : forall page dbg s A t os o al n s' a', page_ok page -> hist page dbg s A ->
  o = Memalign al n \/ (exists a, o = ResizeA a al n) \/ (exists a, o = ReallocA a al n) \/
    (exists d e, n = d * e /\ o = Cmemalign al d e) -> n <> 0 -> usage page A o ->
  step page dbg s t os o = Ok (s', Some a') -> a' mod al = 0.
Proof.
  intros page dbg s A t os o al n s' a' P H O NZ U S.
  pose proof (h_step _ _ _ _ _ _ _ _ _ H U S) as H'.
  assert (Q : exists z c, next A o (Some a') a' = Some (Al n al z c)).
  { destruct O as [->|[(a & ->)|[(a & ->)|(d & e & -> & ->)]]]; cbn [next]; unfold add;
      try (rewrite Z.eqb_refl, al_of_nz by auto; eauto).
    destruct (A a); rewrite Z.eqb_refl, al_of_nz by auto; eauto. }
  destruct Q as (z & c & Q). apply (C19_aligned _ _ _ _ _ _ P H' Q).
Qed.
Print Assumptions C19_requested_alignment.

(** Example histories: a page of 4096 bytes, the heap from 0x1000, expansion 10 MB, threshold 128 KB. *)
Definition page0 : Z := 4096.
Definition s0 : st := init 4096 10485760 131072 58.
Example s0_ok : setMmapStart page0 131072 = Some 58%nat.
Proof. vm_compute. reflexivity. Qed.
Lemma hist0 : forall dbg, hist page0 dbg s0 none.
Proof. intros. apply h_init; [lia|reflexivity|lia|exact s0_ok]. Qed.

(** run a list of calls *)
Fixpoint go (dbg : bool) (s : st) (l : list (nat * Z * op)) (rs : list (option Z)) : result (st * list (option Z)) :=
  match l with
  | [] => Ok (s, rs)
  | (t, os, o) :: r => match step page0 dbg s t os o with
                       | Ok (s', x) => go dbg s' r (rs ++ [x])
                       | Abort => Abort
                       | Fault => Fault
                       end
  end.

(** ... but not for an empty one: memalign( 64, 0 ) is granted at an address that is not a multiple of 64. *)
Theorem C19_aligned_empty_refuted : exists s A t os al s' a',
  hist page0 false s A /\ usage page0 A (Memalign al 0) /\ step page0 false s t os (Memalign al 0) = Ok (s', Some a') /\
  a' mod al <> 0.
Proof.
  eexists s0, none, 0%nat, 0, 64, _, _. split; [apply hist0|]. split; [vm_compute; repeat split; discriminate|].
  split; [vm_compute; reflexivity|]. vm_compute. discriminate.
Qed.
Print Assumptions C19_aligned_empty_refuted.

(** Two threads; a block freed by the other thread goes to its owner's return list and is handed out again; a large
    request is mapped; a zero-filled block is grown in place and by moving. *)
Definition trace0 : list (nat * Z * op) :=
  [ (0%nat, 0, Malloc 100); (0%nat, 0, Write 4112 3 77); (1%nat, 0, Memalign 64 1000); (1%nat, 0, Calloc 10 10);
    (0%nat, 0, Realloc 4112 5000); (1%nat, 0, Malloc 100) ].
Example ex_trace0 : match go false s0 trace0 [] with
  | Ok (s, rs) => rs = [Some 4112; None; Some 1052736; Some 1054224; Some 4240; Some 1054352] /\ data s 4243 = 77 /\
                  free s 0%nat 5%nat = [4096]
  | _ => False end.
Proof. vm_compute. repeat split. Qed.
Definition trace1 : list (nat * Z * op) :=
  [ (0%nat, 0, Malloc 100); (1%nat, 0, Free 4112); (0%nat, 0, Malloc 101); (0%nat, 40960000, Malloc 200000);
    (1%nat, 0, Free 40960016) ].
Example ex_trace1 : match go true s0 trace1 [] with
  | Ok (s, rs) => rs = [Some 4112; None; Some 4112; Some 40960016; None] /\ maps s = [] /\ data s 4113 = 255
  | _ => False end.
Proof. vm_compute. repeat split. Qed.
Example ex_zero_growth : match go true s0 [ (0%nat, 0, Calloc 1 90); (0%nat, 0, Write 4112 0 5); (0%nat, 0, Realloc 4112 95);
    (0%nat, 0, Realloc 4112 500) ] [] with
  | Ok (s, rs) => rs = [Some 4112; None; Some 4112; Some 4224] /\ data s 4224 = 5 /\ data s (4224 + 94) = 0 /\
                  data s (4224 + 499) = 0 /\ malloc_zero_fill s 4224 = true /\ data s 4112 = 255
  | _ => False end.
Proof. vm_compute. repeat split. Qed.

(** C68: the queries report what was asked for, and the usable size is at least the size. *)
Theorem C68_queries : forall page dbg s A a x, page_ok page -> hist page dbg s A -> A a = Some x ->
  malloc_size s a = asz x /\ malloc_alignment s a = aal x /\ malloc_zero_fill s a = azf x /\
  exists u, malloc_usable_size s a = Ok u /\ asz x <= u /\ 0 < u.
Proof.
  intros page dbg s A a x P H E. destruct (hist_inv _ _ _ _ P H) as (own & place & I).
  destruct (live_tag _ _ _ _ _ _ I E) as (b & w & L & _). pose proof (lv_pos _ _ _ _ _ _ _ L) as (LP & _).
  pose proof (L_in _ _ _ _ _ _ _ L). pose proof (L_lt _ _ _ _ _ _ _ L).
  pose proof (L_hdr _ _ _ _ _ _ _ L) as HK.
  assert (US : malloc_usable_size s a = Ok (dataStorage w a b)).
  { unfold malloc_usable_size. rewrite (hok_headers _ _ _ _ _ _ _ HK). destruct (Z.eqb_spec a 0); [lia|]. reflexivity. }
  unfold malloc_size, malloc_alignment, malloc_zero_fill, realHdr, lib. destruct (Z.eqb_spec a 0); [lia|].
  assert (Q : forall h, b = h -> hdr s b = hdr s h) by (intros ? <-; auto).
  destruct HK as [(E1 & HB & EA)|(E1 & HA & HB)].
  - assert (HA : hdr s (a - 16) = Real w (azf x) (asz x)) by (rewrite <- HB; f_equal; lia). rewrite HA.
    repeat split; auto. eexists. split; [exact US|]. unfold dataStorage. lia.
  - rewrite HA. replace (a - 16 - (a - 16 - b)) with b by lia. rewrite HB.
    repeat split; auto. eexists. split; [exact US|]. unfold dataStorage. lia.
Qed.
Print Assumptions C68_queries.

(** All of the usable bytes, not only the requested ones, are the block's own. *)
Theorem C68_usable_disjoint : forall page dbg s A a x a' x' u u' y, page_ok page -> hist page dbg s A ->
  A a = Some x -> A a' = Some x' -> a <> a' -> malloc_usable_size s a = Ok u -> malloc_usable_size s a' = Ok u' ->
  a <= y < a + u -> ~ (a' <= y < a' + u') /\ ~ (a' - 16 <= y < a').
Proof.
  intros page dbg s A a x a' x' u u' y P H E E' N U U' R. destruct (hist_inv _ _ _ _ P H) as (own & place & I).
  destruct (live_tag _ _ _ _ _ _ I E) as (b & w & L & T). destruct (live_tag _ _ _ _ _ _ I E') as (b' & w' & L' & T').
  pose proof (lv_pos _ _ _ _ _ _ _ L) as (LP & LB). pose proof (lv_pos _ _ _ _ _ _ _ L') as (LP' & LB').
  assert (US : forall c y b w, 0 < c -> lv own place s c y b w -> malloc_usable_size s c = Ok (dataStorage w c b)).
  { intros c y0 b0 w0 C L0. unfold malloc_usable_size. rewrite (hok_headers _ _ _ _ _ _ _ (L_hdr _ _ _ _ _ _ _ L0)).
    destruct (Z.eqb_spec c 0); [lia|]. reflexivity. }
  rewrite (US _ _ _ _ LP L) in U. rewrite (US _ _ _ _ LP' L') in U'. unfold dataStorage in *.
  assert (u = bsize w - (a - b)) by congruence. assert (u' = bsize w' - (a' - b')) by congruence.
  pose proof (L_lt _ _ _ _ _ _ _ L').
  assert (O : own y = TB b) by (apply T; lia).
  pose proof (diff_block _ _ _ _ _ _ _ _ _ _ _ N L L').
  split; intros Y; (assert (O' : own y = TB b') by (apply T'; lia)); congruence.
Qed.
Print Assumptions C68_usable_disjoint.

Example ex_queries : match go false s0 [ (0%nat, 0, Memalign 256 1000) ] [] with
  | Ok (s, [Some a]) => a = 4352 /\ malloc_size s a = 1000 /\ malloc_alignment s a = 256 /\
                        malloc_usable_size s a = Ok 1280
  | _ => False end.
Proof. vm_compute. repeat split. Qed.

(** C20: when the request together with its overhead is representable, the block granted has at least the bytes asked
    for - for an array the exact product. *)
Theorem C20_enough_bytes : forall page dbg s A t os o n s' a, page_ok page -> hist page dbg s A ->
  o = Malloc n \/ (exists d e, n = d * e /\ o = Calloc d e) \/ (exists al, o = Memalign al n) \/
    (exists al d e, n = d * e /\ o = Cmemalign al d e) \/ (exists p, o = Resize p n) \/ (exists p, o = Realloc p n) \/
    (exists p al, o = ResizeA p al n) \/ (exists p al, o = ReallocA p al n) ->
  usage page A o -> step page dbg s t os o = Ok (s', Some a) ->
  exists u, malloc_usable_size s' a = Ok u /\ n <= u.
Proof.
  intros page dbg s A t os o n s' a P H O U S.
  pose proof (h_step _ _ _ _ _ _ _ _ _ H U S) as H'.
  assert (Q : exists al z c, next A o (Some a) a = Some (Al n al z c)).
  { destruct O as [->|[(d & e & -> & ->)|[(al & ->)|[(al & d & e & -> & ->)|[(p & ->)|[(p & ->)|[(p & al & ->)|(p & al & ->)]]]]]]];
      cbn [next]; try destruct (A p); unfold add; rewrite Z.eqb_refl; eauto. }
  destruct Q as (al & z & c & Q). destruct (C68_queries _ _ _ _ _ _ P H' Q) as (_ & _ & _ & u & E & L & _). eauto.
Qed.
Print Assumptions C20_enough_bytes.

(** The array entry points, when their product is representable, are the plain ones at the exact product. *)
Theorem C20_products : forall page dbg t al a d e os s, 0 <= d -> 0 <= e -> d * e < 2 ^ 64 ->
  aalloc page dbg t d e os s = doMalloc page dbg t (d * e) os s /\
  amemalign page dbg t al d e os s = memalign page dbg t al (d * e) os s /\
  reallocarray page dbg t a d e os s = realloc page dbg t a (d * e) os s.
Proof.
  intros page dbg t al a d e os s D E R. unfold aalloc, amemalign, reallocarray.
  assert (0 <= d * e) by lia. now rewrite !Z.mod_small by lia.
Qed.
Print Assumptions C20_products.

(** Otherwise the sums and products wrap, and a few bytes are granted for a huge request. *)
Definition short (n : Z) (m : result (st * option Z)) : Prop :=
  exists s a u, m = Ok (s, Some a) /\ malloc_usable_size s a = Ok u /\ u < n < 2 ^ 64.
Theorem C20_malloc_refuted : exists n, short n (doMalloc page0 false 0 n 0 s0).
Proof. exists (2 ^ 64 - 16). eexists _, _, _. split; [|split]; [vm_compute; reflexivity | vm_compute; reflexivity | lia]. Qed.
Print Assumptions C20_malloc_refuted.
Theorem C20_memalign_refuted : exists n, short n (memalign page0 false 0 64 n 0 s0).
Proof. exists (2 ^ 64 - 48). eexists _, _, _. split; [|split]; [vm_compute; reflexivity | vm_compute; reflexivity | lia]. Qed.
Print Assumptions C20_memalign_refuted.
Theorem C20_pvalloc_refuted : exists n, short n (pvalloc page0 false 0 n 0 s0).
Proof. exists (2 ^ 64 - 1). eexists _, _, _. split; [|split]; [vm_compute; reflexivity | vm_compute; reflexivity | lia]. Qed.
Print Assumptions C20_pvalloc_refuted.
Definition short_product (d e : Z) (m : result (st * option Z)) : Prop :=
  0 <= d < 2 ^ 64 /\ 0 <= e < 2 ^ 64 /\ exists s a u, m = Ok (s, Some a) /\ malloc_usable_size s a = Ok u /\ u < d * e.
Theorem C20_array_refuted : exists d e,
  short_product d e (aalloc page0 false 0 d e 0 s0) /\ short_product d e (calloc page0 false 0 d e 0 s0) /\
  short_product d e (reallocarray page0 false 0 0 d e 0 s0).
Proof.
  exists (2 ^ 32), (2 ^ 32). split; [|split]; (split; [lia|split; [lia|]]); eexists _, _, _;
    (split; [|split]; [vm_compute; reflexivity | vm_compute; reflexivity | lia]).
Qed.
Print Assumptions C20_array_refuted.
(** A request malloc refuses with 0p makes realloc and memalign dereference it. *)
Theorem C20_null_refuted : exists n s, hist page0 false s (add none 4112 (Al 100 16 false fresh)) /\
  doMalloc page0 false 0 n 0 s = Ok (s, None) /\ realloc page0 false 0 4112 n 0 s = Fault /\
  memalign page0 false 0 64 (n - 64) 0 s = Fault.
Proof.
  exists (2 ^ 64 - 100). eexists. split.
  - apply (h_step page0 false s0 none 0 0 (Malloc 100) _ (Some 4112)); [apply hist0| |].
    + vm_compute. repeat split; discriminate.
    + vm_compute. reflexivity.
  - vm_compute. repeat split.
Qed.
Print Assumptions C20_null_refuted.
