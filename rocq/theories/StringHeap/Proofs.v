From Coq Require Import ZArith List Bool Lia ZifyBool.
From Verif.StringHeap Require Import Model Spec.
Import ListNotations.
Open Scope Z_scope.

Lemma eqn_spec : forall a b, reflect (a = b) (eqn a b).
Proof. intros [x|] [y|]; cbn [eqn]; try (constructor; congruence). destruct (Nat.eqb_spec x y); constructor; congruence. Qed.
Lemma eqn_refl : forall a, eqn a a = true.
Proof. intros a. destruct (eqn_spec a a); congruence. Qed.

(** ** Reading and writing *)
Lemma read_ext : forall m m' a n, (forall x, a <= x < a + n -> m x = m' x) -> read m a n = read m' a n.
Proof. intros m m' a n H. apply map_ext_in. intros k I. apply in_seq in I. apply H. lia. Qed.
Lemma read_length : forall m a n, 0 <= n -> Z.of_nat (length (read m a n)) = n.
Proof. intros. unfold read. rewrite map_length, seq_length. lia. Qed.
Lemma nth_read : forall m a n k, (k < Z.to_nat n)%nat -> nth k (read m a n) 0 = m (a + Z.of_nat k).
Proof.
  intros. unfold read. rewrite (nth_indep _ 0 (m (a + Z.of_nat 0))) by (rewrite map_length, seq_length; auto).
  rewrite (map_nth (fun k => m (a + Z.of_nat k))). rewrite seq_nth by auto. reflexivity.
Qed.
Lemma write_out : forall m a l x, x < a \/ a + Z.of_nat (length l) <= x -> write m a l x = m x.
Proof. intros. unfold write. destruct (Z.leb_spec a x), (Z.ltb_spec x (a + Z.of_nat (length l))); cbn [andb]; auto. lia. Qed.
Lemma write_in : forall m a l x, a <= x < a + Z.of_nat (length l) -> write m a l x = nth (Z.to_nat (x - a)) l 0.
Proof. intros. unfold write. destruct (Z.leb_spec a x), (Z.ltb_spec x (a + Z.of_nat (length l))); cbn [andb]; auto; lia. Qed.
Lemma write_read : forall m f a n x, f <= x < f + n -> write m f (read m a n) x = m (a + (x - f)).
Proof. intros. rewrite write_in by (rewrite read_length; lia). rewrite nth_read by lia. f_equal. lia. Qed.
Lemma read_write : forall m a l, read (write m a l) a (Z.of_nat (length l)) = l.
Proof.
  intros. unfold read. rewrite Nat2Z.id. apply nth_ext with (d := 0) (d' := 0); [rewrite map_length, seq_length; auto|].
  intros k H. rewrite map_length, seq_length in H.
  rewrite (nth_indep _ 0 (write m a l (a + Z.of_nat 0))) by (rewrite map_length, seq_length; auto).
  rewrite (map_nth (fun k => write m a l (a + Z.of_nat k))). rewrite seq_nth by auto. rewrite write_in by lia. f_equal. lia.
Qed.
Lemma read_app : forall m a n k, 0 <= n -> 0 <= k -> read m a (n + k) = read m a n ++ read m (a + n) k.
Proof.
  intros. unfold read. rewrite Z2Nat.inj_add by auto. rewrite seq_app, map_app. f_equal. cbn [plus].
  rewrite <- (Nat.add_0_r (Z.to_nat n)) at 1. generalize 0%nat as z. intros z. revert z.
  induction (Z.to_nat k) as [|j IH]; intros z; cbn [seq map]; auto. f_equal; [f_equal; lia|].
  rewrite <- (IH (S z)). f_equal. f_equal. lia.
Qed.
Lemma read_sub : forall m a n i k, 0 <= i -> 0 <= k -> i + k <= n -> read m (a + i) k = firstn (Z.to_nat k) (skipn (Z.to_nat i) (read m a n)).
Proof.
  intros. replace n with (i + (k + (n - i - k))) by lia. rewrite read_app by lia. rewrite read_app by lia.
  assert (L : length (read m a i) = Z.to_nat i) by (unfold read; rewrite map_length, seq_length; auto).
  rewrite skipn_app, skipn_all2, L, Nat.sub_diag by lia. cbn [app skipn].
  assert (L2 : length (read m (a + i) k) = Z.to_nat k) by (unfold read; rewrite map_length, seq_length; auto).
  rewrite firstn_app, L2, Nat.sub_diag, firstn_all2 by lia. cbn [firstn]. rewrite app_nil_r. auto.
Qed.

(** ** Blocks of the handle list *)
Definition within (h k : handle) : Prop := adr h <= adr k < adr h + len h /\ 0 <= len k /\ adr k + len k <= adr h + len h.
Definition same (h k : handle) : Prop := adr k = adr h /\ len k = len h /\ 0 < len h.
Definition shift (d : Z) (k : handle) : handle := H (who k) (adr k + d) (len k).
Inductive tidy (W : handle -> handle -> Prop) (hi : Z) : Z -> list handle -> Prop :=
  | tidy_nil : forall lo, lo <= hi -> tidy W hi lo []
  | tidy_blk : forall lo h a b, lo <= adr h -> 0 <= len h -> Forall (W h) a -> tidy W hi (adr h + len h) b -> tidy W hi lo (h :: a ++ b).
Definition fine (W : handle -> handle -> Prop) : Prop :=
  (forall h k, W h k -> within h k) /\ (forall d h k, W h k -> W (shift d h) (shift d k)) /\
  forall h h' k, adr h' = adr h -> len h' = len h -> W h k -> W h' k.
Lemma within_fine : fine within.
Proof.
  split; auto. split; unfold within.
  - intros d h k. cbn [shift adr len]. lia.
  - intros h h' k A B C. lia.
Qed.
Lemma same_fine : fine same.
Proof.
  split; [|split].
  - unfold same, within. lia.
  - unfold same. intros d h k. cbn [shift adr len]. lia.
  - unfold same. intros h h' k A B C. lia.
Qed.
Lemma tidy_le : forall W hi lo l, tidy W hi lo l -> lo <= hi.
Proof. intros W hi lo l H. induction H; lia. Qed.
Lemma tidy_low : forall W hi lo lo' l, tidy W hi lo l -> lo' <= lo -> tidy W hi lo' l.
Proof. intros W hi lo lo' l H L. destruct H; constructor; auto; lia. Qed.
Lemma tidy_high : forall W hi hi' lo l, tidy W hi lo l -> hi <= hi' -> tidy W hi' lo l.
Proof. intros W hi hi' lo l H L. induction H; constructor; auto; lia. Qed.
Definition inside (lo hi : Z) (k : handle) : Prop := lo <= adr k /\ 0 <= len k /\ adr k + len k <= hi.
Lemma tidy_inside : forall W hi lo l, fine W -> tidy W hi lo l -> Forall (inside lo hi) l.
Proof.
  intros W hi lo l [F _] H. induction H as [|lo h a b L N A T IH]; constructor.
  - apply tidy_le in T. unfold inside. lia.
  - apply Forall_app. split.
    + apply tidy_le in T. eapply Forall_impl; [|exact A]. intros k K. apply F in K. unfold within, inside in *. lia.
    + eapply Forall_impl; [|exact IH]. unfold inside. intros; lia.
Qed.
Lemma nested_ok : forall W hi h a b f, fine W -> Forall (W h) a -> tidy W hi (adr h + len h) b -> 0 <= len h -> 0 <= f -> f + len h <= 2 ^ 64 ->
  nested (adr h) f (adr h + len h) (a ++ b) = (map (shift (f - adr h)) a, b).
Proof.
  intros W hi h a b f F A T N P Q. induction A as [|k a K A IH]; cbn [app map].
  - destruct T as [|lo g c d L]; cbn [nested]; auto. rewrite (proj2 (Z.leb_le _ _)) by lia. auto.
  - cbn [nested]. apply F in K. unfold within in K. rewrite (proj2 (Z.leb_gt _ _)) by lia. rewrite IH. unfold uptr.
    rewrite Z.mod_small by lia. unfold shift at 2. f_equal. f_equal. f_equal. lia.
Qed.
Definition kept (m m' : Z -> Z) (hi hi' : Z) (h h' : handle) : Prop :=
  who h' = who h /\ len h' = len h /\ read m' (adr h') (len h') = read m (adr h) (len h) /\ (adr h + len h = hi -> adr h' + len h' = hi').
Lemma used_pos : forall lo hi l, Forall (inside lo hi) l -> 0 <= used l.
Proof. intros lo hi l H. induction H as [|k l K]; cbn [used fold_right]; [lia|]. unfold inside in K. fold (used l). lia. Qed.
Lemma used_app : forall a b, used (a ++ b) = used a + used b.
Proof. induction a; intros; cbn [used fold_right app]; auto. fold (used (a0 ++ b)). rewrite IHa. fold (used a0). lia. Qed.
Lemma ok_in : forall lo hi a n, 0 <= n -> lo <= a -> a + n <= hi -> ok lo hi a n = true.
Proof. intros. unfold ok. rewrite (proj2 (Z.leb_le 0 n)), (proj2 (Z.leb_le lo a)), (proj2 (Z.leb_le (a + n) hi)) by auto. apply orb_true_r. Qed.
Lemma ok_zero : forall lo hi a, ok lo hi a 0 = true.
Proof. reflexivity. Qed.

Lemma compact_ok : forall W, fine W -> forall fuel l m f lo hi slo shi dlo dhi, (length l <= fuel)%nat -> tidy W hi lo l ->
  slo <= lo -> hi <= shi -> 0 <= dlo -> dlo <= f -> f + (hi - lo) <= dhi -> dhi <= 2 ^ 64 -> f <= lo \/ hi <= f ->
  exists m' f' l', compact fuel slo shi dlo dhi m f l = Ok (m', f', l') /\ f <= f' <= f + (hi - lo) /\ f' - f <= used l /\
    tidy W f' f l' /\ Forall2 (kept m m' hi f') l l' /\ (forall x, x < f \/ f' <= x -> m' x = m x).
Proof.
  intros W F. induction fuel as [|fuel IH]; intros l m f lo hi slo shi dlo dhi Lf T S1 S2 D0 D1 D2 D3 AP.
  - destruct l; cbn [length] in Lf; [|lia]. exists m, f, []. cbn [compact used fold_right]. apply tidy_le in T.
    split; auto. split; [lia|]. split; [lia|]. split; [constructor; lia|]. split; [constructor|auto].
  - destruct T as [lo T|lo h a b L N A T].
    + exists m, f, []. cbn [compact used fold_right]. split; auto. split; [lia|]. split; [lia|]. split; [constructor; lia|]. split; [constructor|auto].
    + pose proof (tidy_le _ _ _ _ T) as LE. pose proof (tidy_inside _ _ _ _ F T) as IN. cbn [compact].
      rewrite ok_in by lia. rewrite ok_in by lia. cbn [andb]. rewrite (nested_ok W hi) by (auto; lia).
      set (m1 := write m f (read m (adr h) (len h))).
      assert (M1 : forall x, x < f \/ f + len h <= x -> m1 x = m x) by (intros x X; unfold m1; apply write_out; rewrite read_length by auto; auto).
      destruct (IH b m1 (f + len h) (adr h + len h) hi slo shi dlo dhi) as (m2 & f2 & b2 & E & B & U & T2 & K2 & M2); auto; try lia.
      { cbn [length] in Lf. rewrite app_length in Lf. lia. }
      rewrite E. cbn [bind]. exists m2, f2, (H (who h) f (len h) :: map (shift (f - adr h)) a ++ b2). split; auto.
      assert (MV : forall k, within h k \/ k = h -> read m2 (adr k + (f - adr h)) (len k) = read m (adr k) (len k)).
      { intros k K. assert (adr h <= adr k /\ 0 <= len k /\ adr k + len k <= adr h + len h) by (destruct K as [K| ->]; unfold within in *; lia).
        transitivity (read m1 (adr k + (f - adr h)) (len k)).
        - apply read_ext. intros x X. apply M2. lia.
        - unfold read. apply map_ext_in. intros j J. apply in_seq in J. unfold m1. rewrite write_read by lia. f_equal. lia. }
      split; [lia|]. split.
      { cbn [used fold_right]. fold (used (a ++ b)). rewrite used_app.
        assert (0 <= used a). { apply (used_pos (adr h) (adr h + len h)). eapply Forall_impl; [|exact A]. intros k K. apply F in K. unfold within, inside in *. lia. } lia. }
      split.
      { apply tidy_blk; cbn [adr len]; auto; [lia|]. apply Forall_map. eapply Forall_impl; [|exact A]. intros k K.
        destruct F as (_ & F2 & F3). apply F3 with (shift (f - adr h) h); cbn [shift adr len]; [lia|auto|]. apply F2; auto. }
      split.
      { constructor.
        - unfold kept. cbn [who len adr]. split; auto. split; auto. split.
          + rewrite <- (MV h) by auto. f_equal. lia.
          + intros Q. rewrite Q in B. lia.
        - apply Forall2_app.
          + clear -A MV F B. induction A as [|k a K A IHA]; cbn [map]; constructor; auto. unfold kept. cbn [shift who len adr].
            split; auto. split; auto. split; [apply MV; left; apply F; auto|]. apply F in K. unfold within in K. intros Q. lia.
          + assert (E2 : forall b2, Forall2 (kept m1 m2 hi f2) b b2 -> Forall2 (kept m m2 hi f2) b b2).
            { clear -IN M1 AP L. intros b2 K2. induction K2 as [|k k' b b2 K K2 IHK]; constructor.
              - unfold kept in *. destruct K as (K1 & K2' & K3 & K4). split; auto. split; auto. split; auto. rewrite K3. apply read_ext.
                inversion IN; subst. unfold inside in *. intros x X. apply M1. lia.
              - apply IHK. inversion IN; auto. }
            apply E2; auto. }
      intros x X. rewrite M2 by lia. apply M1. lia.
Qed.

(** a trailing empty handle with any address does not disturb the others *)
Lemma nested_app : forall o n lim z r, exists z', who z' = who z /\ len z' = len z /\
  nested o n lim (r ++ [z]) = let (a, b) := nested o n lim r in
    match b with [] => if lim <=? adr z then (a, [z]) else (a ++ [z'], []) | _ => (a, b ++ [z]) end.
Proof.
  intros o n lim z r. exists (H (who z) (uptr (n + (adr z - o))) (len z)). cbn [who len]. split; auto. split; auto.
  induction r as [|h r IH]; cbn [nested app].
  - destruct (lim <=? adr z); auto.
  - destruct (lim <=? adr h); auto. rewrite IH. destruct (nested o n lim r) as [a b]. destruct b; auto. destruct (lim <=? adr z); auto.
Qed.
Lemma compact_tail : forall fuel slo shi dlo dhi l m f m' f' l' z, compact fuel slo shi dlo dhi m f l = Ok (m', f', l') -> len z = 0 ->
  exists m2 z', compact (S fuel) slo shi dlo dhi m f (l ++ [z]) = Ok (m2, f', l' ++ [z']) /\ (forall x, m2 x = m' x) /\ who z' = who z /\ len z' = 0.
Proof.
  induction fuel as [|fuel IH]; intros slo shi dlo dhi l m f m' f' l' z E Z.
  - destruct l; [|discriminate]. cbn [compact] in E. injection E as <- <- <-. cbn [app compact]. rewrite Z, !ok_zero. cbn [andb nested compact bind].
    exists (write m f (read m (adr z) 0)), (H (who z) f 0). rewrite Z.add_0_r. split; auto. split; auto.
    intros x. apply write_out. cbn. lia.
  - destruct l as [|h r].
    + cbn [compact] in E. injection E as <- <- <-. cbn [app compact]. rewrite Z, !ok_zero. cbn [andb nested compact bind].
      exists (write m f (read m (adr z) 0)), (H (who z) f 0). rewrite Z.add_0_r. split; auto. split; auto.
      intros x. apply write_out. cbn. lia.
    + cbn [compact] in E. rewrite <- app_comm_cons.
      change (compact (S (S fuel)) slo shi dlo dhi m f (h :: r ++ [z])) with
        (if ok slo shi (adr h) (len h) && ok dlo dhi f (len h) then
            let m1 := write m f (read m (adr h) (len h)) in
            let (a, b) := nested (adr h) f (adr h + len h) (r ++ [z]) in
            bind (compact (S fuel) slo shi dlo dhi m1 (f + len h) b) (fun '(m2, f2, b2) => Ok (m2, f2, H (who h) f (len h) :: a ++ b2))
          else Fault).
      destruct (ok slo shi (adr h) (len h) && ok dlo dhi f (len h)); [|discriminate].
      set (m1 := write m f (read m (adr h) (len h))) in *. cbv zeta in E |- *.
      destruct (nested_app (adr h) f (adr h + len h) z r) as (z' & Z1 & Z2 & NE). rewrite NE.
      destruct (nested (adr h) f (adr h + len h) r) as [a b].
      destruct (compact fuel slo shi dlo dhi m1 (f + len h) b) as [[[m2 f2] b2]| | |] eqn:C; cbn [bind] in E; try discriminate.
      injection E as <- <- <-. destruct b as [|y b].
      * assert (Q : m2 = m1 /\ f2 = f + len h /\ b2 = []) by (destruct fuel; cbn [compact] in C; injection C; auto).
        destruct Q as (-> & -> & ->). destruct (adr h + len h <=? adr z).
        -- cbn [compact]. rewrite Z, !ok_zero. cbn [andb nested]. assert (X : forall n mm ff, compact n slo shi dlo dhi mm ff [] = Ok (mm, ff, [])) by (destruct n; reflexivity).
           rewrite X. cbn [bind]. exists (write m1 (f + len h) (read m1 (adr z) 0)), (H (who z) (f + len h) 0). rewrite Z.add_0_r, (app_nil_r a).
           split; auto. split; auto. intros x. apply write_out. cbn. lia.
        -- cbn [compact bind]. exists m1, z'. rewrite !app_nil_r. split; auto. split; auto. split; auto. congruence.
      * destruct (IH _ _ _ _ _ _ _ _ _ _ z C Z) as (m3 & z3 & E3 & M3 & W3 & L3). rewrite E3. cbn [bind].
        exists m3, z3. cbn [app]. rewrite <- app_assoc. auto.
Qed.

(** ** Representation *)
Definition names (l : list handle) : list name := map who l.
Record bounds (h : heap) : Prop := {
  b_start : 0 <= start h; b_fin : start h <= fin h <= ext h; b_ext : ext h = start h + curr h; b_max : ext h <= 2 ^ 64; b_init : 0 <= init h }.
Definition good (place : heap -> Z -> option Z) : Prop :=
  forall h n a, place h n = Some a -> 0 <= a /\ a + n <= 2 ^ 64 /\ (a + n <= start h \/ ext h <= a).
Definition zeros (l : list handle) : Prop := l = [] \/ exists z, l = [z] /\ len z = 0.
Lemma kept_refl : forall m hi l, Forall2 (kept m m hi hi) l l.
Proof. induction l; constructor; auto. unfold kept. auto. Qed.
Lemma kept_ext : forall m m' m2 hi hi' l l', (forall x, m2 x = m' x) -> Forall2 (kept m m' hi hi') l l' -> Forall2 (kept m m2 hi hi') l l'.
Proof.
  intros m m' m2 hi hi' l l' E K. induction K as [|k k' l l' K L IH]; constructor; auto. unfold kept in *. destruct K as (A & B & C & D).
  split; auto. split; auto. split; auto. rewrite <- C. apply read_ext. auto.
Qed.
Lemma compaction_ok : forall W h lo hi slo shi l t, fine W -> hs h = l ++ t -> zeros t -> tidy W hi lo l ->
  slo <= lo -> hi <= shi -> 0 <= start h -> start h + (hi - lo) <= ext h -> ext h <= 2 ^ 64 -> start h <= lo \/ hi <= start h ->
  exists h1 l1 t1, compaction h slo shi = Ok h1 /\ start h1 = start h /\ ext h1 = ext h /\ init h1 = init h /\ curr h1 = curr h /\
    hs h1 = l1 ++ t1 /\ zeros t1 /\ names t1 = names t /\ start h <= fin h1 <= start h + (hi - lo) /\ fin h1 - start h <= used l /\
    tidy W (fin h1) (start h) l1 /\ Forall2 (kept (mem h) (mem h1) hi (fin h1)) l l1.
Proof.
  intros W h lo hi slo shi l t F E Z T S1 S2 P Q M AP. unfold compaction. rewrite E.
  destruct (compact_ok W F (length l) l (mem h) (start h) lo hi slo shi (start h) (ext h)) as (m' & f' & l' & C & B & U & T' & K & X); auto; try lia.
  destruct Z as [->|(z & -> & Z)].
  - rewrite app_nil_r, C. cbn [bind]. do 2 eexists. exists []. split; [reflexivity|]. cbn [start ext init curr hs fin mem].
    do 4 (split; [reflexivity|]). split; [rewrite app_nil_r; reflexivity|]. split; [left; auto|]. split; auto.
  - destruct (compact_tail _ _ _ _ _ _ _ _ _ _ _ z C Z) as (m2 & z' & C2 & M2 & W2 & L2). rewrite app_length, Nat.add_comm. cbn [length plus].
    rewrite C2. cbn [bind]. do 2 eexists. exists [z']. split; [reflexivity|]. cbn [start ext init curr hs fin mem].
    do 4 (split; [reflexivity|]). split; [reflexivity|]. split; [right; exists z'; auto|]. split; [unfold names; cbn [map]; congruence|].
    split; auto. split; auto. split; auto. eapply kept_ext; eauto.
Qed.
Section S.
Variables (low : Z -> Z -> bool) (place : heap -> Z -> option Z).
Hypothesis G : good place.
Lemma alloc_ok : forall W h l t size, fine W -> bounds h -> hs h = l ++ t -> zeros t -> tidy W (fin h) (start h) l -> 0 <= size ->
  alloc low place h size = NoMem \/ exists h1 a l1 t1, alloc low place h size = Ok (h1, a) /\ bounds h1 /\ hs h1 = l1 ++ t1 /\ zeros t1 /\ names t1 = names t /\
    fin h1 = a + size /\ start h1 <= a /\ tidy W a (start h1) l1 /\ Forall2 (kept (mem h) (mem h1) (fin h) a) l l1.
Proof.
  intros W h l t size F B E ZT T N. destruct B as [B1 B2 B3 B4 B5]. unfold alloc.
  assert (U : used (hs h) = used l).
  { rewrite E, used_app. destruct ZT as [->|(z & -> & ZL)]; cbn [used fold_right]; lia. }
  assert (FIN : forall h1 l1 t1, start h1 <= fin h1 -> fin h1 + size <= ext h1 -> 0 <= start h1 -> ext h1 = start h1 + curr h1 -> ext h1 <= 2 ^ 64 -> 0 <= init h1 ->
    hs h1 = l1 ++ t1 -> zeros t1 -> names t1 = names t -> tidy W (fin h1) (start h1) l1 -> Forall2 (kept (mem h) (mem h1) (fin h) (fin h1)) l l1 ->
    exists h2 a l1 t1, (Ok (Heap (start h1) (fin h1 + size) (ext h1) (init h1) (curr h1) (mem h1) (hs h1), fin h1) = Ok (h2, a) :> res (heap * Z)) /\
      bounds h2 /\ hs h2 = l1 ++ t1 /\ zeros t1 /\ names t1 = names t /\ fin h2 = a + size /\ start h2 <= a /\ tidy W a (start h2) l1 /\ Forall2 (kept (mem h) (mem h2) (fin h) a) l l1).
  { intros h1 l1 t1 H1 H2 H3 H4 H5 H6 H7 H8 H9 H10 H11. do 2 eexists. exists l1, t1. split; [reflexivity|].
    cbn [start fin ext init curr mem hs]. split; [constructor; cbn [start fin ext init curr mem hs]; lia|]. auto 10. }
  destruct (Z.ltb_spec (ext h) (fin h + size)) as [L|L].
  - unfold garbage. rewrite U. destruct (low (ext h - start h - used l) (curr h) || (ext h - start h - used l <? size)) eqn:Q.
    + unfold extend. set (n := curr h + (if init h <? Z.max (curr h) size then Z.max (curr h) size else init h)).
      assert (NN : curr h + size <= n) by (unfold n; destruct (Z.ltb_spec (init h) (Z.max (curr h) size)); lia).
      destruct (place h n) as [a|] eqn:P; [|left; reflexivity]. right. destruct (G _ _ _ P) as (G1 & G2 & G3).
      destruct (compaction_ok W (Heap a a (a + n) (init h) n (mem h) (hs h)) (start h) (fin h) (start h) (ext h) l t)
        as (h1 & l1 & t1 & C & C1 & C2 & C3 & C4 & C5 & C6 & C7 & C8 & C9 & C10 & C11); cbn [start ext hs]; auto; try lia.
      cbn [start ext hs fin init curr mem] in *. rewrite C. cbn [bind]. apply (FIN h1 l1 t1); auto; try lia; try congruence.
    + right. apply orb_false_iff in Q. destruct Q as [_ Q]. apply Z.ltb_ge in Q.
      destruct (compaction_ok W h (start h) (fin h) (start h) (ext h) l t)
        as (h1 & l1 & t1 & C & C1 & C2 & C3 & C4 & C5 & C6 & C7 & C8 & C9 & C10 & C11); auto; try lia.
      rewrite C. cbn [bind]. apply (FIN h1 l1 t1); auto; try lia; try congruence.
  - right. cbn [bind]. apply (FIN h l t); auto; try lia. apply kept_refl.
Qed.
End S.
