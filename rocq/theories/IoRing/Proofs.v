From Coq Require Import List Bool Arith ZArith Lia ZifyBool Permutation.
From Verif.IoRing Require Import Model Spec.
Import ListNotations.
Open Scope Z_scope.
Lemma slot_mod k x : 0 <= k <= 31 -> slot (2 ^ k) (w32 x) = x mod 2 ^ k.
Proof.
  intros K. unfold slot, w32. replace (2 ^ k - 1) with (Z.ones k) by (rewrite Z.ones_equiv; lia). rewrite Z.land_ones by lia.
  assert (2 ^ 32 = 2 ^ (32 - k) * 2 ^ k) as -> by (rewrite <- Z.pow_add_r by lia; f_equal; lia).
  assert (0 < 2 ^ k) by (apply Z.pow_pos_nonneg; lia). assert (0 < 2 ^ (32 - k)) by (apply Z.pow_pos_nonneg; lia).
  rewrite (Z.mul_comm (2 ^ (32 - k))). rewrite Z.rem_mul_r by lia. rewrite (Z.mul_comm (2 ^ k) (_ mod _)), Z_mod_plus_full. apply Z.mod_mod; lia.
Qed.
Lemma iota_length n : length (iota n) = n.
Proof. unfold iota; rewrite map_length, seq_length; auto. Qed.
Lemma iota_S n : iota (S n) = 0 :: map (fun i => i + 1) (iota n).
Proof. unfold iota. cbn [seq map]. f_equal. rewrite <- seq_shift, !map_map. apply map_ext. intros; lia. Qed.
Lemma iota_app n m : iota (n + m) = iota n ++ map (fun i => Z.of_nat n + i) (iota m).
Proof.
  revert m; induction n as [|n IH]; intros m; [change (iota 0) with (@nil Z); cbn [Nat.add app]; rewrite <- (map_id (iota m)) at 1; apply map_ext; intros; lia|].
  cbn [Nat.add]. rewrite !iota_S, IH. cbn [app]. f_equal. rewrite map_app, !map_map. f_equal. apply map_ext; intros; lia.
Qed.
Lemma read_length m a h n : length (read m a h n) = n.
Proof. unfold read; rewrite map_length; apply iota_length. Qed.
Lemma in_iota n i : In i (iota n) <-> 0 <= i < Z.of_nat n.
Proof.
  unfold iota; rewrite in_map_iff. split.
  - intros (x & <- & H). apply in_seq in H. lia.
  - intros H. exists (Z.to_nat i). split; [lia|apply in_seq; lia].
Qed.
Lemma nodup_iota n : NoDup (iota n).
Proof. unfold iota. apply FinFun.Injective_map_NoDup; [intros x y; lia|apply seq_NoDup]. Qed.
Lemma w32_sub x y z : w32 (x - y) = Z.of_nat z -> w32 x = w32 (y + Z.of_nat z).
Proof. unfold w32. intros H. rewrite <- H. rewrite Zplus_mod_idemp_r. f_equal; lia. Qed.
Lemma w32_w32 x : w32 (w32 x) = w32 x.
Proof. unfold w32. apply Z.mod_mod; lia. Qed.
Lemma w32_add x y : w32 (w32 x + y) = w32 (x + y).
Proof. unfold w32. apply Zplus_mod_idemp_l. Qed.
Lemma w32_sub_l x y : w32 (w32 x - y) = w32 (x - y).
Proof. unfold w32. apply Zminus_mod_idemp_l. Qed.
Lemma w32_sub_r x y : w32 (x - w32 y) = w32 (x - y).
Proof. unfold w32. apply Zminus_mod_idemp_r. Qed.
Section Ring.
Variable k : Z.
Hypothesis K : 0 <= k <= 31.
Let m := 2 ^ k.
Lemma m_pos : 0 < m.
Proof. apply Z.pow_pos_nonneg; lia. Qed.
Lemma m_div x y : w32 x = w32 y -> x mod m = y mod m.
Proof. intros H. unfold m. rewrite <- (slot_mod k x K), <- (slot_mod k y K), H. reflexivity. Qed.
Lemma read_app a h n p : read m a h (n + p) = read m a h n ++ read m a (w32 (h + Z.of_nat n)) p.
Proof.
  unfold read. rewrite iota_app, map_app, map_map. f_equal. apply map_ext. intros i. unfold m; rewrite !slot_mod by lia. f_equal. apply m_div. unfold w32. rewrite Zplus_mod_idemp_l. f_equal; lia.
Qed.
Lemma read_cong a h h' n : w32 h = w32 h' -> read m a h n = read m a h' n.
Proof. intros H. unfold read. apply map_ext. intros i. unfold m; rewrite !slot_mod by lia. f_equal. apply m_div. unfold w32 in *. rewrite <- (Zplus_mod_idemp_l h), H, Zplus_mod_idemp_l. reflexivity. Qed.
Lemma mod_inj h i j : 0 <= i < m -> 0 <= j < m -> (h + i) mod m = (h + j) mod m -> i = j.
Proof.
  intros I J E. pose proof m_pos. assert ((i - j) mod m = 0). { replace (i - j) with ((h + i) - (h + j)) by lia. rewrite Zminus_mod, E, Z.sub_diag. apply Z.mod_0_l; lia. }
  destruct (Z_lt_ge_dec i j).
  - assert ((j - i) mod m = 0). { replace (j - i) with (- (i - j)) by lia. apply Z_mod_zero_opp_full; auto. } rewrite Z.mod_small in H1 by lia. lia.
  - rewrite Z.mod_small in H0 by lia. lia.
Qed.
Lemma write_at a t l : forall i j, 0 <= i -> i + Z.of_nat (length l) <= m -> 0 <= j < m ->
  write m a t i l (slot m (w32 (t + j))) = if (i <=? j) && (j <? i + Z.of_nat (length l)) then nth (Z.to_nat (j - i)) l 0 else a (slot m (w32 (t + j))).
Proof.
  revert a; induction l as [|x l IH]; intros a i j I L J; cbn [write length].
  - replace ((i <=? j) && (j <? i + Z.of_nat 0)) with false by lia. reflexivity.
  - rewrite Nat2Z.inj_succ in *. cbn [length] in L. rewrite IH by lia. unfold set, m. rewrite !slot_mod by lia.
    destruct (Z.eqb_spec ((t + j) mod 2 ^ k) ((t + i) mod 2 ^ k)) as [E|E].
    + apply mod_inj in E; [|fold m; lia..]. subst j. replace ((i + 1 <=? i) && (i <? i + 1 + Z.of_nat (length l))) with false by lia.
      replace ((i <=? i) && (i <? i + Z.succ (Z.of_nat (length l)))) with true by lia. rewrite Z.sub_diag. reflexivity.
    + assert (j <> i) by congruence. destruct ((i + 1 <=? j) && (j <? i + 1 + Z.of_nat (length l))) eqn:B.
      * replace ((i <=? j) && (j <? i + Z.succ (Z.of_nat (length l)))) with true by lia. replace (Z.to_nat (j - i)) with (S (Z.to_nat (j - (i + 1)))) by lia. reflexivity.
      * replace ((i <=? j) && (j <? i + Z.succ (Z.of_nat (length l)))) with false by lia. reflexivity.
Qed.
Lemma map_nth_iota l : map (fun i => nth (Z.to_nat i) l 0) (iota (length l)) = l.
Proof.
  induction l as [|x l IH]; [reflexivity|]. cbn [length]. rewrite iota_S. cbn [map]. change (nth (Z.to_nat 0) (x :: l) 0) with x. f_equal. rewrite map_map. rewrite <- IH at 2.
  apply map_ext_in. intros i Hi. apply in_iota in Hi. replace (Z.to_nat (i + 1)) with (S (Z.to_nat i)) by lia. reflexivity.
Qed.
Lemma read_write a t l : Z.of_nat (length l) <= m -> read m (write m a t 0 l) t (length l) = l.
Proof.
  intros L. unfold read. etransitivity; [|apply (map_nth_iota l)]. apply map_ext_in. intros i Hi. apply in_iota in Hi. rewrite write_at by lia.
  replace ((0 <=? i) && (i <? 0 + Z.of_nat (length l))) with true by lia. rewrite Z.sub_0_r. reflexivity.
Qed.
(** what was there before the tail stays *)
Lemma read_old a h t n l : w32 t = w32 (h + Z.of_nat n) -> Z.of_nat n + Z.of_nat (length l) <= m -> read m (write m a t 0 l) h n = read m a h n.
Proof.
  intros T L. pose proof m_pos. unfold read. apply map_ext_in. intros i Hi. apply in_iota in Hi.
  assert (E : slot m (w32 (h + i)) = slot m (w32 (t + (m - Z.of_nat n + i)))).
  { unfold m. rewrite !slot_mod by lia. apply m_div in T. fold m. rewrite (Zplus_mod t), T, <- Zplus_mod. replace (h + Z.of_nat n + (m - Z.of_nat n + i)) with (h + i + 1 * m) by lia. rewrite Z_mod_plus_full. reflexivity. }
  rewrite E, write_at by lia. replace ((0 <=? m - Z.of_nat n + i) && (m - Z.of_nat n + i <? 0 + Z.of_nat (length l))) with false by lia. rewrite <- E. reflexivity.
Qed.
Lemma w32_len (n : nat) : Z.of_nat n <= m -> w32 (Z.of_nat n) = Z.of_nat n.
Proof. intros H. unfold w32. apply Z.mod_small. assert (m <= 2 ^ 31) by (unfold m; apply Z.pow_le_mono_r; lia). lia. Qed.
Record sim (r : ring) (a : abs) : Prop := {
  s_nm : nm r = m;
  s_fl : w32 (ft r - fh r) = Z.of_nat (length (free a));
  s_f : read m (farr r) (fh r) (length (free a)) = free a;
  s_kl : w32 (kt r - kh r) = Z.of_nat (length (queue a));
  s_k : read m (karr r) (kh r) (length (queue a)) = queue a;
  s_rel : w32 (rel r) = w32 (kh r);
  s_ts : ts r = Z.of_nat (length (queue a));
  s_all : Permutation (free a ++ held a ++ queue a) (iota (Z.to_nat m)) }.
Lemma s_count r a : sim r a -> (Z.of_nat (length (free a)) + Z.of_nat (length (held a)) + Z.of_nat (length (queue a)) = m).
Proof. intros H. pose proof (Permutation_length (s_all _ _ H)) as L. rewrite !app_length, iota_length in L. pose proof m_pos. lia. Qed.
Lemma split_read a h l n : (n <= length l)%nat -> read m a h (length l) = l -> read m a h n = firstn n l /\ read m a (w32 (h + Z.of_nat n)) (length l - n) = skipn n l.
Proof.
  intros N E. replace (length l) with (n + (length l - n))%nat in E by lia. rewrite read_app in E.
  assert (G := firstn_skipn n l). rewrite <- E in G at 3. symmetry in G. clear E. rename G into E. apply app_eq_app in E. destruct E as (x & [(E1 & E2)|(E1 & E2)]).
  - assert (X : x = []). { assert (Q := f_equal (@length _) E1). rewrite app_length, read_length, firstn_length in Q. destruct x; auto. cbn [length] in Q. lia. } subst x. rewrite app_nil_r in E1. cbn [app] in E2. auto.
  - assert (X : x = []). { assert (Q := f_equal (@length _) E1). rewrite app_length, read_length, firstn_length in Q. destruct x; auto. cbn [length] in Q. lia. } subst x. rewrite app_nil_r in E1. cbn [app] in E2. auto.
Qed.
Lemma sim_alloc r a n : sim r a -> step r (Alloc n) = if (n <=? length (free a))%nat then (Got (firstn n (free a)), snd (step r (Alloc n))) else (Full, r).
Proof.
  intros S1. cbn [step]. unfold alloc. rewrite (s_fl _ _ S1), (s_nm _ _ S1). destruct (Nat.leb_spec n (length (free a))).
  - replace (Z.of_nat (length (free a)) <? Z.of_nat n) with false by lia. cbn [snd]. f_equal. f_equal. apply (split_read _ _ _ _ H (s_f _ _ S1)).
  - replace (Z.of_nat (length (free a)) <? Z.of_nat n) with true by lia. reflexivity.
Qed.
Lemma sim_release r a q : nm r = m -> w32 (ft r - fh r) = Z.of_nat (length (free a)) -> read m (farr r) (fh r) (length (free a)) = free a ->
  w32 (kh r - rel r) = Z.of_nat (length q) -> read m (karr r) (rel r) (length q) = q -> w32 (kt r - kh r) = Z.of_nat (length (queue a)) -> read m (karr r) (kh r) (length (queue a)) = queue a ->
  ts r = Z.of_nat (length (queue a)) -> Permutation (free a ++ q ++ held a ++ queue a) (iota (Z.to_nat m)) -> sim (release r) (A (free a ++ q) (held a) (queue a)).
Proof.
  intros N FL F QL Q KL Kq T P. pose proof m_pos. pose proof (Permutation_length P) as L. rewrite !app_length, iota_length in L.
  unfold release. rewrite QL. destruct (Z.eqb_spec (Z.of_nat (length q)) 0) as [E|E].
  - assert (q = []) by (destruct q; auto; discriminate). subst q. rewrite app_nil_r in *. constructor; cbn [free held queue]; auto.
    apply w32_sub in QL. cbn [length Z.of_nat] in QL. rewrite Z.add_0_r in QL. auto.
  - constructor; cbn [nm kh kt rel fh ft ts karr farr free held queue]; auto.
    + rewrite w32_sub_l. replace (ft r + Z.of_nat (length q) - fh r) with ((ft r - fh r) + Z.of_nat (length q)) by lia. rewrite <- w32_add, FL, app_length, <- Nat2Z.inj_add. apply w32_len. lia.
    + rewrite app_length, read_app, Nat2Z.id, N, Q. apply w32_sub in FL. rewrite read_old by (auto; lia). f_equal; auto.
      rewrite (read_cong _ _ (ft r)) by (rewrite w32_w32; auto). apply read_write. lia.
    + rewrite <- app_assoc. auto.
Qed.
Theorem simulates r a o x b : sim r a -> legal a o x b -> fst (step r o) = x /\ sim (snd (step r o)) b.
Proof.
  intros S1 L. pose proof (s_count _ _ S1) as C. pose proof m_pos as M. destruct L as [f h q n H|f h q n H|f h h' q l H|f h q n H|f h q].
  - pose proof (sim_alloc r _ n S1) as E. cbn [free] in E. replace (n <=? length f)%nat with true in E by lia. split; [rewrite E; reflexivity|].
    cbn [step]. unfold alloc. destruct S1 as [N FL F KL Kq RL T P]; cbn [free held queue] in *. rewrite FL, N. replace (Z.of_nat (length f) <? Z.of_nat n) with false by lia. cbn [snd].
    constructor; cbn [nm kh kt rel fh ft ts karr farr free held queue]; auto.
    + rewrite w32_sub_r. replace (ft r - (fh r + Z.of_nat n)) with ((ft r - fh r) - Z.of_nat n) by lia. rewrite <- w32_sub_l, FL. rewrite skipn_length, <- Nat2Z.inj_sub by auto. apply w32_len. lia.
    + rewrite skipn_length. apply (split_read _ _ _ _ H F).
    + apply Permutation_trans with (2 := P). rewrite <- (firstn_skipn n f) at 3. rewrite <- !app_assoc. rewrite !app_assoc. do 2 apply Permutation_app_tail. apply Permutation_app_comm.
  - pose proof (sim_alloc r _ n S1) as E. cbn [free] in E. replace (n <=? length f)%nat with false in E by lia. rewrite E; auto.
  - split; [reflexivity|]. cbn [step snd]. unfold submit. destruct S1 as [N FL F KL Kq RL T P]; cbn [free held queue] in *.
    pose proof (Permutation_length H) as LH. rewrite app_length in LH. rewrite N.
    constructor; cbn [nm kh kt rel fh ft ts karr farr free held queue]; auto.
    + rewrite w32_sub_l. replace (kt r + Z.of_nat (length l) - kh r) with ((kt r - kh r) + Z.of_nat (length l)) by lia. rewrite <- w32_add, KL, app_length, <- Nat2Z.inj_add. apply w32_len. lia.
    + rewrite app_length, read_app. apply w32_sub in KL. rewrite read_old by (auto; lia). f_equal; auto. rewrite (read_cong _ _ (kt r)) by (rewrite w32_w32; auto). apply read_write. lia.
    + rewrite T, app_length, <- Nat2Z.inj_add. apply w32_len. lia.
    + apply Permutation_trans with (2 := P). apply Permutation_app_head. rewrite H. rewrite app_assoc. rewrite (Permutation_app_comm l h'). rewrite <- !app_assoc. apply Permutation_app_head. apply Permutation_app_comm.
  - cbn [step]. unfold enter. cbn [fst snd]. destruct S1 as [N FL F KL Kq RL T P]; cbn [free held queue] in *. rewrite N. destruct (split_read _ _ _ _ H Kq) as [Q1 Q2]. split; [f_equal; auto|].
    assert (LQ : length (firstn n q) = n) by (rewrite firstn_length; lia).
    apply (sim_release _ (A f h (skipn n q)) (firstn n q)); cbn [nm kh kt rel fh ft ts karr farr free held queue]; auto.
    + rewrite w32_sub_l, LQ. unfold w32 in *. rewrite Zminus_mod, RL, <- Zminus_mod. replace (kh r + Z.of_nat n - kh r) with (Z.of_nat n) by lia. apply w32_len. lia.
    + rewrite LQ, (read_cong _ _ (kh r)); auto.
    + rewrite w32_sub_r. replace (kt r - (kh r + Z.of_nat n)) with ((kt r - kh r) - Z.of_nat n) by lia. rewrite <- w32_sub_l, KL, skipn_length, <- Nat2Z.inj_sub by auto. apply w32_len. lia.
    + rewrite skipn_length; auto.
    + rewrite T, skipn_length, <- Nat2Z.inj_sub by auto. apply w32_len. lia.
    + apply Permutation_trans with (2 := P). apply Permutation_app_head. rewrite <- (firstn_skipn n q) at 3. rewrite !app_assoc. apply Permutation_app_tail. apply Permutation_app_comm.
  - split; [reflexivity|exact S1].
Qed.
Lemma sim_start k0 : sim (setup m k0) (start (Z.to_nat m)).
Proof.
  pose proof m_pos. assert (Z.of_nat (Z.to_nat m) = m) by lia. assert (W : w32 m = m) by (rewrite <- H0; apply w32_len; lia). unfold setup, start.
  constructor; cbn [nm kh kt rel fh ft ts karr farr free held queue]; auto.
  - rewrite iota_length, Z.sub_0_r, w32_w32, W. lia.
  - rewrite iota_length. unfold read. rewrite <- (map_id (iota (Z.to_nat m))) at 2. apply map_ext_in. intros i Hi. apply in_iota in Hi. unfold m. rewrite slot_mod by lia. apply Z.mod_small. fold m. lia.
  - rewrite app_nil_r. auto.
Qed.
Theorem simulates_all os : forall r a xs b, sim r a -> legals a os xs b -> fst (run r os) = xs /\ sim (snd (run r os)) b.
Proof.
  induction os as [|o os IH]; intros r a xs b S1 L; inversion L as [|? ? x c ? ys ? H3 H5]; subst; cbn [run]; [auto|].
  destruct (simulates _ _ _ _ _ S1 H3) as [E1 E2]. destruct (step r o) as [y r1]. cbn [fst snd] in *. destruct (IH _ _ _ _ E2 H5) as [E3 E4]. destruct (run r1 os) as [zs r2]. cbn [fst snd] in *. subst; auto.
Qed.
End Ring.
Lemma legal_fifo os : forall a xs b, legals a os xs b -> queue a ++ submitted os = seen xs ++ queue b.
Proof.
  induction os as [|o os IH]; intros a xs b L; inversion L as [|? ? x c ? ys ? L1 L2]; subst; [rewrite app_nil_r; reflexivity|]. specialize (IH _ _ _ L2). unfold submitted, seen in *. cbn [map concat].
  destruct L1; cbn [queue app] in *; auto.
  - rewrite app_assoc. auto.
  - rewrite <- app_assoc, <- IH, app_assoc, firstn_skipn. reflexivity.
Qed.
Lemma nodup_r (l l' : list Z) : NoDup (l ++ l') -> NoDup l'.
Proof. induction l as [|x l IH]; cbn [app]; intros H; auto. inversion H; auto. Qed.
Lemma nodup_l (l l' : list Z) : NoDup (l ++ l') -> NoDup l.
Proof. intros H. apply (nodup_r l' l). eapply Permutation_NoDup; [apply Permutation_app_comm|auto]. Qed.
