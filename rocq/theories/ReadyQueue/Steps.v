From Coq Require Import ZArith List Bool Lia ZifyBool Permutation.
From Verif.ReadyQueue Require Import Model Spec Proofs.
Import ListNotations.
Open Scope nat_scope.

Record Full (q : queue) (s : lists) : Prop := {
  f_rep : Rep q (lane s); f_cap : cap q = size s; f_count : count q = size s; f_total : total q = procs s;
  f_size : size s = lanes (procs s) \/ size s = 0 /\ procs s = 0 }.
Lemma rep_ext : forall q f g, (forall i, f i = g i) -> Rep q f -> Rep q g.
Proof.
  intros q f g E [R1 R2 R3 R4 R5 R6]. constructor.
  - intros i. rewrite <- E. auto.
  - intros i. rewrite <- E. auto.
  - intros i. rewrite <- E. auto.
  - intros i. rewrite <- E. auto.
  - intros i j t. rewrite <- !E. eauto.
  - intros t X. apply R6. intros i. rewrite E. auto.
Qed.
Lemma set_pref_rep : forall q f t w, Rep q f -> Rep (set_pref q t w) f.
Proof. intros q f t w [R1 R2 R3 R4 R5 R6]. constructor; auto. Qed.
Lemma set_count_rep : forall q f n m, Rep q f -> Rep (set_count q n m) f.
Proof. intros q f t w [R1 R2 R3 R4 R5 R6]. constructor; auto. Qed.
Lemma choose_remote_lt : forall n p r, (0 < n)%nat -> Nat.Even n -> choose_remote n p r < n.
Proof.
  intros n p r N [k K]. unfold choose_remote, u32. pose proof (Z.mod_pos_bound r 2 ltac:(lia)). pose proof (Z.mod_pos_bound r (Z.of_nat n) ltac:(lia)).
  assert (E : ((p * 2) mod 2 ^ 32 = 2 * (p mod 2 ^ 31))%Z). { change (2 ^ 32)%Z with (2 ^ 31 * 2)%Z. rewrite Z.mul_mod_distr_r by lia. lia. }
  rewrite E. pose proof (Z.mod_pos_bound p (2 ^ 31) ltac:(lia)). destruct (Z.ltb_spec (2 * (p mod 2 ^ 31)) (Z.of_nat n)); lia.
Qed.
Lemma choose_local_cases : forall p its, choose_local p its = 2 * p \/ choose_local p its = 2 * p + 1.
Proof. intros p its. unfold choose_local. pose proof (Z.mod_pos_bound its 2 ltac:(lia)). assert (E : (its mod 2 = 0 \/ its mod 2 = 1)%Z) by lia. destruct E as [-> | ->]; lia. Qed.
Lemma choose_local_next : forall p its, choose_local p its <> choose_local p (u32 (its + 1)).
Proof.
  intros p its. unfold choose_local, u32. assert (E : ((its + 1) mod 2 ^ 32 mod 2 = (its + 1) mod 2)%Z).
  { symmetry. apply Znumtheory.Zmod_div_mod; try lia. exists (2 ^ 31)%Z. lia. }
  rewrite E. assert (D : (its mod 2 <> (its + 1) mod 2)%Z) by lia. pose proof (Z.mod_pos_bound its 2 ltac:(lia)). pose proof (Z.mod_pos_bound (its + 1) 2 ltac:(lia)). lia.
Qed.
Lemma try_pop_ok : forall q s w, Full q s -> w < size s ->
  (lane s w = [] /\ try_pop q w = Ok (q, None)) \/ exists t q1 s1, took s w t s1 /\ try_pop q w = Ok (q1, Some t) /\ Full q1 s1.
Proof.
  intros q s w [R EC EN ET ES] W. unfold try_pop. rewrite EN, (proj2 (Nat.ltb_lt _ _)) by auto. cbn [negb].
  assert (WC : w < cap q) by lia. pose proof (empty_iff _ _ _ R WC) as EM. destruct (is_empty q w).
  - left. split; auto. apply EM. auto.
  - right. destruct (lane s w) as [|t r] eqn:E; [discriminate (proj2 EM eq_refl)|].
    destruct (pop_ok _ _ _ _ _ R WC E) as (q1 & a & P & R1 & _ & C1 & N1 & T1 & _). rewrite P. cbn [bind]. exists t. do 2 eexists. split; [apply took_; eauto|]. split; [reflexivity|].
    constructor; cbn [set_pref cap count total size procs lane]; try congruence; auto. apply set_pref_rep. auto.
Qed.
Lemma lane_at_lt : forall off n i, 0 < n -> lane_at off n i < n.
Proof. intros off n i N. unfold lane_at. pose proof (Z.mod_pos_bound (u32 (off + Z.of_nat i)) (Z.of_nat n) ltac:(lia)). lia. Qed.
Lemma search_ok : forall k q s off i, Full q s -> 0 < size s \/ k = 0 ->
  ((forall j, i <= j < i + k -> lane s (lane_at off (size s) j) = []) /\ search q off i k = Ok (q, None)) \/
  exists w t q1 s1, took s w t s1 /\ search q off i k = Ok (q1, Some t) /\ Full q1 s1.
Proof.
  induction k as [|k IH]; intros q s off i F Z; cbn [search].
  - left. split; auto. intros j J. lia.
  - destruct Z as [Z|Z]; [|discriminate]. rewrite (f_count _ _ F).
    destruct (try_pop_ok q s (lane_at off (size s) i) F (lane_at_lt _ _ _ Z)) as [[E P]|(t & q1 & s1 & TK & P & F1)]; rewrite P; cbn [bind].
    + destruct (IH q s off (S i) F (or_introl Z)) as [[N R]|R]; [|right; auto]. left. split; auto. intros j J.
      destruct (Nat.eq_dec j i) as [->|D]; auto. apply N. lia.
    + right. exists (lane_at off (size s) i), t, q1, s1. auto.
Qed.
(** the loops of grow and shrink *)
Lemma loop_fix : forall k q i, i + k <= cap q -> exists q', loop fix1 q i k = Ok q' /\ base q' = base q /\ cap q' = cap q /\ count q' = count q /\ total q' = total q /\
  anchor q' = anchor q /\ rdy q' = rdy q /\ pref q' = pref q /\
  forall j, prev q' j = if (i <=? j) && (j <? i + k) && is_empty q j then A (base q) j else prev q j.
Proof.
  induction k as [|k IH]; intros q i H; cbn [loop].
  - exists q. repeat (split; auto). intros j. destruct (i <=? j) eqn:X, (j <? i + 0) eqn:Y; cbn [andb]; auto. lia.
  - unfold fix1 at 1. rewrite (proj2 (Nat.ltb_lt _ _)) by lia. cbn [negb bind].
    set (q1 := if is_empty q i then set_prev q i (A (base q) i) else q).
    assert (E : base q1 = base q /\ cap q1 = cap q /\ count q1 = count q /\ total q1 = total q /\ anchor q1 = anchor q /\ rdy q1 = rdy q /\ pref q1 = pref q) by (unfold q1; destruct (is_empty q i); cbn; auto 10).
    destruct E as (E1 & E2 & E3 & E4 & E5 & E6 & E7). destruct (IH q1 (S i)) as (q' & L & F1 & F2 & F3 & F4 & F5 & F6 & F7 & F8); [lia|].
    exists q'. split; auto. repeat (split; [congruence|]). intros j. rewrite F8. unfold is_empty. rewrite E5, E1. fold (is_empty q j).
    destruct (Nat.eq_dec j i) as [->|D].
    + rewrite (proj2 (Nat.leb_gt (S i) i)), (proj2 (Nat.leb_le i i)), (proj2 (Nat.ltb_lt i (i + S k))) by lia. cbn [andb]. unfold q1. destruct (is_empty q i); auto. cbn [set_prev prev]. apply upd_same.
    + assert (P1 : prev q1 j = prev q j) by (unfold q1; destruct (is_empty q i); auto; cbn [set_prev prev]; apply upd_other; auto). rewrite P1.
      replace (S i <=? j) with (i <=? j) by lia. replace (j <? S i + k) with (j <? i + S k) by lia. auto.
Qed.
Lemma loop_init : forall k q i, i + k <= cap q -> exists q', loop init1 q i k = Ok q' /\ base q' = base q /\ cap q' = cap q /\ count q' = count q /\ total q' = total q /\
  rdy q' = rdy q /\ pref q' = pref q /\ (forall j, anchor q' j = if (i <=? j) && (j <? i + k) then L None MAX else anchor q j) /\
  forall j, prev q' j = if (i <=? j) && (j <? i + k) then A (base q) j else prev q j.
Proof.
  induction k as [|k IH]; intros q i H; cbn [loop].
  - exists q. repeat (split; auto); intros j; destruct (i <=? j) eqn:X, (j <? i + 0) eqn:Y; cbn [andb]; auto; lia.
  - unfold init1 at 1. rewrite (proj2 (Nat.ltb_lt _ _)) by lia. cbn [negb bind].
    set (q1 := assign (set_prev q i (A (base q) i)) (A (base q) i) (L None MAX)).
    destruct (IH q1 (S i)) as (q' & L & F1 & F2 & F3 & F4 & F6 & F7 & F5 & F8); [cbn; lia|].
    exists q'. split; auto. do 6 (split; [assumption|]). split; intros j; rewrite ?F5, ?F8; (destruct (Nat.eq_dec j i) as [->|D]; [
      rewrite (proj2 (Nat.leb_gt (S i) i)), (proj2 (Nat.leb_le i i)), (proj2 (Nat.ltb_lt i (i + S k))) by lia; cbn [andb q1 assign set_prev anchor prev]; apply upd_same|
      replace (S i <=? j) with (i <=? j) by lia; replace (j <? S i + k) with (j <? i + S k) by lia; cbn [q1 assign set_prev anchor prev base]; rewrite upd_other by auto; auto]).
Qed.
Lemma lanes_even : forall n, Nat.Even (lanes n).
Proof. intros n. unfold lanes. destruct (Nat.max_spec (2 * n) 2) as [[_ ->]|[_ ->]]; [exists 1|exists n]; lia. Qed.
Lemma lanes_mono : forall n m, n <= m -> lanes n <= lanes m.
Proof. intros. unfold lanes. lia. Qed.
(** moving the array with its lanes below n; those beyond are empty *)
Lemma move_rep : forall q f n pl q', Rep q f -> (forall i, n <= i -> f i = []) -> cap q' = n -> base q' = at_ pl ->
  rdy q' = rdy q -> (forall i, i < Nat.min n (cap q) -> anchor q' i = anchor q i) ->
  (forall i, i < Nat.min n (cap q) -> prev q' i = if is_empty q i then A (at_ pl) i else prev q i) ->
  (forall i, cap q <= i < n -> anchor q' i = L None MAX /\ prev q' i = A (at_ pl) i) -> Rep q' f.
Proof.
  intros q f n pl q' R FN EC EB ER EA EP EN. constructor; rewrite ?EC, ?EB, ?ER.
  - intros i I. destruct (Nat.lt_ge_cases i (cap q)) as [J|J].
    + rewrite EA by lia. apply (p_chain _ _ R); auto.
    + rewrite (proj1 (EN i ltac:(lia))), (p_none _ _ R) by auto. reflexivity.
  - intros i I. destruct (Nat.lt_ge_cases i (cap q)) as [J|J].
    + rewrite EP by lia. pose proof (empty_iff _ _ _ R J) as EM. destruct (is_empty q i).
      * rewrite (proj1 EM eq_refl). auto.
      * rewrite (p_last _ _ R) by auto. destruct (f i); auto. discriminate (proj2 EM eq_refl).
    + rewrite (proj2 (EN i ltac:(lia))), (p_none _ _ R) by auto. reflexivity.
  - auto.
  - apply (p_nodup _ _ R).
  - apply (p_disj _ _ R).
  - apply (p_clear _ _ R).
Qed.
Lemma grow_ok : forall q s n pl, Full q s -> procs s <= n -> exists q1, grow q n pl = Ok q1 /\ Full q1 (R (lanes n) n (lane s)).
Proof.
  intros q s n pl [R EC EN ET ES] H. unfold grow. rewrite EN. destruct (Nat.eqb_spec (size s) (lanes n)) as [E|D].
  - eexists. split; [reflexivity|]. constructor; cbn [set_count cap count total size procs lane]; auto; try congruence. apply set_count_rep; auto.
  - assert (LE : size s <= lanes n). { pose proof (lanes_mono _ _ H). destruct ES as [->|[-> _]]; lia. }
    destruct (loop_fix (size s) (realloc q (lanes n) pl) 0) as (q1 & L1 & F1 & F2 & F3 & F4 & F5 & F6 & F7 & F8); [cbn [realloc cap]; lia|]. rewrite L1. cbn [bind].
    destruct (loop_init (lanes n - size s) q1 (size s)) as (q2 & L2 & G1 & G2 & G3 & G4 & G6 & G7 & G5 & G8); [rewrite F2; cbn [realloc cap]; lia|]. rewrite L2. cbn [bind].
    eexists. split; [reflexivity|]. constructor; cbn [set_count cap count total size procs lane]; auto; [|rewrite G2, F2; reflexivity].
    apply set_count_rep. apply (move_rep q (lane s) (lanes n) pl); auto.
    + intros i I. apply (p_none _ _ R). lia.
    + rewrite G2, F2. reflexivity.
    + rewrite G1, F1. reflexivity.
    + rewrite G6, F6. reflexivity.
    + intros i I. rewrite G5, F5. rewrite (proj2 (Nat.leb_gt (size s) i)) by lia. cbn [andb realloc anchor]. rewrite (proj2 (Nat.ltb_lt _ _)) by auto. auto.
    + intros i I. rewrite G8. rewrite (proj2 (Nat.leb_gt (size s) i)) by lia. cbn [andb]. rewrite F8. cbn [realloc base prev]. unfold is_empty. cbn [realloc anchor].
      rewrite (proj2 (Nat.ltb_lt i (Nat.min (lanes n) (cap q)))) by auto. rewrite (proj2 (Nat.leb_le 0 i)), (proj2 (Nat.ltb_lt i (0 + size s))) by lia. cbn [andb]. auto.
    + intros i I. rewrite G5, G8, (proj2 (Nat.leb_le (size s) i)), (proj2 (Nat.ltb_lt i (size s + (lanes n - size s)))) by lia. cbn [andb]. rewrite F1. auto.
Qed.
Lemma moved_app : forall n f a g b h, moved n f a g -> moved n g b h -> moved n f (a ++ b) h.
Proof. intros n f a g b h M. induction M; intros X; cbn [app]; auto. econstructor; eauto. Qed.
Lemma drain_ok : forall q f i ms h, Rep q f -> i < cap q -> count q <= i -> 0 < count q -> Nat.Even (count q) -> Forall (fun m => sensible (snd m)) ms ->
  length (f i) <= length ms -> (forall j, j < count q -> f j = h j) ->
  exists q1 ms1 f1 h1, drain q i ms = Ok (q1, ms1) /\ Rep q1 f1 /\ moved (count q) h (f i) h1 /\ (forall j, j < count q -> f1 j = h1 j) /\ f1 i = [] /\
    (forall j, count q <= j -> j <> i -> f1 j = f j) /\ base q1 = base q /\ cap q1 = cap q /\ count q1 = count q /\ total q1 = total q /\
    Forall (fun m => sensible (snd m)) ms1 /\ length ms = length (f i) + length ms1.
Proof.
  intros q f i ms. remember (f i) as l eqn:E. revert q f ms E. induction l as [|t r IH]; intros q f ms E h R I C P EV S LE AG.
  - assert (X : drain q i ms = Ok (q, ms)). { destruct ms; cbn [drain]; rewrite (proj2 (empty_iff _ _ _ R I)) by auto; auto. }
    exists q, ms, f, h. rewrite X. repeat (split; auto). constructor.
  - assert (EM : is_empty q i = false). { pose proof (empty_iff _ _ _ R I) as EM. destruct (is_empty q i); auto. rewrite (proj1 EM) in E by auto. discriminate. }
    destruct ms as [|[rr now] ms]; cbn [length] in LE; [lia|]. cbn [drain]. rewrite EM. inversion S as [|? ? S1 S2]; subst. cbn [snd] in S1. symmetry in E.
    destruct (pop_ok q f i t r R I E) as (q1 & a & PO & R1 & B1 & C1 & N1 & T1 & _). rewrite PO. cbn [bind]. rewrite N1.
    set (c := choose_remote (count q) (pref q1 t) rr). assert (CL : c < count q) by (apply choose_remote_lt; auto). rewrite (proj2 (Nat.ltb_lt _ _)) by auto. cbn [negb].
    assert (NT : forall j, ~ In t (put f i r j)).
    { intros j J. apply in_put in J. destruct J as [[-> J]|[D J]].
      - pose proof (p_nodup _ _ R i) as ND. rewrite E in ND. inversion ND; auto.
      - apply D. eapply (p_disj _ _ R); eauto. rewrite E. left. auto. }
    destruct (push_ok q1 (put f i r) c t now R1 ltac:(lia) NT S1) as (q2 & PU & R2 & B2 & C2 & N2 & T2 & _). rewrite PU. cbn [bind].
    set (f2 := put (put f i r) c (put f i r c ++ [t])) in *.
    assert (F2I : f2 i = r) by (unfold f2; rewrite put_other by lia; apply put_same).
    destruct (IH q2 f2 ms (eq_sym F2I) (put h c (h c ++ [t]))) as (q3 & ms1 & f3 & h3 & D3 & R3 & M3 & A3 & Z3 & O3 & B3 & C3 & N3 & T3 & S3 & L3); auto; try lia; try congruence.
    { intros j J. assert (j < count q) by congruence. unfold f2. destruct (Nat.eq_dec j c) as [->|D]; [rewrite !put_same, put_other by lia; rewrite AG by auto; auto|]. rewrite !put_other by lia. apply AG. lia. }
    exists q3, ms1, f3, h3. rewrite N2, N1 in *. split; auto. split; auto. split; [econstructor; eauto|]. split; auto. split; auto. split.
    { intros j J D. rewrite O3 by auto. unfold f2. rewrite !put_other by lia. auto. }
    repeat (split; [congruence|]). cbn [length]. lia.
Qed.
Lemma drains_ok : forall k q f i ms h, Rep q f -> i + k <= cap q -> count q <= i -> 0 < count q -> Nat.Even (count q) -> Forall (fun m => sensible (snd m)) ms ->
  length (concat (map f (seq i k))) <= length ms -> (forall j, j < count q -> f j = h j) ->
  exists q1 f1 h1, drains q i k ms = Ok q1 /\ Rep q1 f1 /\ moved (count q) h (concat (map f (seq i k))) h1 /\ (forall j, j < count q -> f1 j = h1 j) /\
    (forall j, i <= j < i + k -> f1 j = []) /\ (forall j, count q <= j -> ~ (i <= j < i + k) -> f1 j = f j) /\ base q1 = base q /\ cap q1 = cap q /\ count q1 = count q /\ total q1 = total q.
Proof.
  induction k as [|k IH]; intros q f i ms h R I C P EV SE LE AG; cbn [drains seq map concat] in *.
  - exists q, f, h. repeat (split; auto). { constructor. } intros j J. lia.
  - rewrite app_length in LE.
    destruct (drain_ok q f i ms h R ltac:(lia) C P EV SE ltac:(lia) AG) as (q1 & ms1 & f1 & h1 & D1 & R1 & M1 & A1 & Z1 & O1 & B1 & C1 & N1 & T1 & S1 & L1).
    rewrite D1. cbn [bind].
    assert (ME : map f1 (seq (S i) k) = map f (seq (S i) k)). { apply map_ext_in. intros j J. apply in_seq in J. apply O1; lia. }
    destruct (IH q1 f1 (S i) ms1 h1) as (q2 & f2 & h2 & D2 & R2 & M2 & A2 & Z2 & O2 & B2 & C2 & N2 & T2); auto; try lia.
    { rewrite N1. auto. }
    { rewrite ME. lia. }
    { rewrite N1. auto. }
    rewrite N1, ME in *. exists q2, f2, h2. split; auto. split; auto. split; [eapply moved_app; eauto|]. split; auto. split.
    { intros j J. destruct (Nat.eq_dec j i) as [->|D]; [rewrite O2 by lia; auto|apply Z2; lia]. }
    split; [intros j J D; rewrite O2 by lia; apply O1; lia|]. repeat (split; [congruence|]). congruence.
Qed.
Lemma shrink_ok : forall q s n pl ms, Full q s -> n <= procs s -> 0 < size s -> Forall (fun m => sensible (snd m)) ms -> length (all s) <= length ms ->
  exists q1 g, shrink q n pl ms = Ok q1 /\ moved (lanes n) (fun i => if i <? lanes n then lane s i else []) (concat (map (lane s) (seq (lanes n) (size s - lanes n)))) g /\
    Full q1 (R (lanes n) n g).
Proof.
  intros q s n pl ms [R EC EN ET ES] H Z S LE. unfold shrink. rewrite EN. pose proof (lanes_mono _ _ H) as LM.
  assert (LS : lanes n <= size s) by (destruct ES as [->|[E _]]; [auto|lia]). rewrite (proj2 (Nat.ltb_ge _ _)) by auto.
  set (c := lanes n) in *. assert (CP : 0 < c) by (unfold c, lanes; lia).
  assert (LD : length (concat (map (lane s) (seq c (size s - c)))) <= length ms).
  { unfold all in LE. replace (size s) with (c + (size s - c)) in LE by lia. rewrite seq_app, map_app, concat_app, app_length in LE. cbn [plus] in LE. lia. }
  destruct (drains_ok (size s - c) (set_count q c n) (lane s) c ms (fun i => if i <? c then lane s i else [])) as (q1 & f1 & h1 & D1 & R1 & M1 & A1 & Z1 & O1 & B1 & C1 & N1 & T1);
    cbn [set_count cap count total]; auto; try lia.
  { apply set_count_rep. auto. }
  { apply lanes_even. }
  { intros j J. rewrite (proj2 (Nat.ltb_lt _ _)) by auto. auto. }
  rewrite D1. cbn [bind set_count cap count total base] in *.
  destruct (loop_fix c (realloc q1 c pl) 0) as (q2 & L2 & F1 & F2 & F3 & F4 & F5 & F6 & F7 & F8); [cbn [realloc cap]; lia|]. rewrite L2.
  assert (FE : forall i, c <= i -> f1 i = []).
  { intros i I. destruct (Nat.lt_ge_cases i (size s)); [apply Z1; lia|]. rewrite O1 by lia. apply (p_none _ _ R). lia. }
  exists q2, h1. split; auto. split; auto. constructor; cbn [size procs lane].
  - assert (HE : forall i, c <= i -> h1 i = []).
    { clear -M1. set (h0 := fun i => if i <? c then lane s i else []) in M1. assert (E0 : forall i, c <= i -> h0 i = []) by (intros i I; unfold h0; rewrite (proj2 (Nat.ltb_ge _ _)) by auto; auto).
      induction M1; auto. apply IHM1. intros j J. rewrite put_other by lia. auto. }
    apply rep_ext with f1. { intros i. destruct (Nat.lt_ge_cases i c); [auto|rewrite FE, HE; auto]. }
    apply (move_rep q1 f1 c pl); auto; rewrite ?F1, ?F2, ?F5, ?F6; auto.
    + intros i I. cbn [realloc anchor]. rewrite (proj2 (Nat.ltb_lt _ _)) by auto. auto.
    + intros i I. rewrite F8. cbn [realloc base prev]. unfold is_empty. cbn [realloc anchor].
      rewrite (proj2 (Nat.ltb_lt i (Nat.min c (cap q1)))) by auto. rewrite (proj2 (Nat.leb_le 0 i)), (proj2 (Nat.ltb_lt i (0 + c))) by lia. cbn [andb]. auto.
    + intros i I. lia.
  - rewrite F2. reflexivity.
  - rewrite F3. cbn [realloc count]. auto.
  - rewrite F4. cbn [realloc total]. auto.
  - left. reflexivity.
Qed.
