From Coq Require Import List Bool Arith ZArith Lia ZifyBool.
From Verif.Snzi Require Import Model Spec Proofs.
Import ListNotations.
Open Scope nat_scope.
Lemma up : forall t s h, wf t -> Inv t s -> h < m t -> (0 < client s h \/ (0 < kids t (val s) (m t) h)%Z) -> (0 < root s)%Z.
Proof.
  intros t s h WF I. remember (m t - h) as d eqn:Hd. revert h Hd. induction d as [d IH] using lt_wf_ind. intros h -> L H.
  pose proof (I_eq _ _ I h L) as E. pose proof (kids_pos t (val s) (m t) h) as K. pose proof (sumt_pos t (thr s) h) as S0. unfold tot, amt in E. destruct (parent t h) as [q|] eqn:P; [|lia].
  assert (IN : inner t h) by (split; [auto|congruence]).
  destruct (Z.eqb_spec (fst (val s h)) half) as [HF|HF].
  - destruct (half_none _ _ _ I IN HF). lia.
  - pose proof (proj1 WF h q L P) as LQ. apply (IH (m t - q)) with (h := q); try lia. right.
    pose proof (kid_in t (val s) (m t) q h L) as KI. unfold kid, isp in KI. rewrite P, Nat.eqb_refl in KI. destruct (Z.leb_spec 1 (fst (val s h))); cbn [andb b2z] in KI; lia.
Qed.
Lemma idle_sum : forall t l p, (forall k, In k l -> k = nil) -> sumt t l p = 0%Z.
Proof. intros t l p H. induction l as [|k l IH]; [reflexivity|]. cbn [sumt]. rewrite (H k) by (left; auto). rewrite IH; [reflexivity|]. intros k1 K. apply H. right. auto. Qed.
Lemma down : forall t s h, wf t -> Inv t s -> idle s -> h < m t -> (0 < amt t s h)%Z -> exists g, 0 < client s g.
Proof.
  intros t s h WF I ID. induction h as [h IH] using lt_wf_ind. intros L H. pose proof (I_eq _ _ I h L) as E. unfold tot in E.
  assert (Z0 : forall p, sumt t (thr s) p = 0%Z).
  { intros p. apply idle_sum. exact ID. }
  rewrite Z0 in E. destruct (client s h) eqn:C; [|exists h; lia].
  destruct (kids_pick t (val s) (m t) h) as [g [G1 [G2 G3]]]; [lia|]. assert (P : parent t g = Some h) by (unfold isp in G2; destruct (parent t g) as [q|]; [apply Nat.eqb_eq in G2; congruence|discriminate]).
  pose proof (proj1 WF g h G1 P). apply (IH g); try lia. rewrite amt_in by congruence. destruct (fst (val s g) =? half)%Z; lia.
Qed.
(** C41. The query never answers no while an arrival has completed and the matching departure has not begun *)
Theorem C41_sound : forall t k s h, wf t -> reach t k s -> 0 < client s h -> query s = true.
Proof.
  intros t k s h WF R C. pose proof (reach_inv _ _ _ WF R) as I. assert (L : h < m t). { destruct (Nat.lt_ge_cases h (m t)) as [L|L]; auto. rewrite (I_cl _ _ I h L) in C. lia. }
  pose proof (up t s h WF I L (or_introl C)). unfold query. lia.
Qed.
Print Assumptions C41_sound.
(** with no operation in progress it answers exactly whether arrivals exceed departures *)
Theorem C41_quiet : forall t k s, wf t -> reach t k s -> idle s -> 0 < m t -> (query s = true <-> exists h, 0 < client s h).
Proof.
  intros t k s WF R ID M. split; [|intros [h H]; eapply C41_sound; eauto]. intros Q. pose proof (reach_inv _ _ _ WF R) as I.
  apply (down t s (m t - 1) WF I ID); [lia|]. unfold amt. destruct (parent t (m t - 1)) eqn:P; [assert (M1 : m t - 1 < m t) by lia; pose proof (proj1 WF (m t - 1) n M1 P); lia|]. unfold query in Q. lia.
Qed.
Print Assumptions C41_quiet.
(** the assertions on the way hold: a departure always finds a positive count, and the root's counter never goes below zero *)
Theorem C41_no_fault : forall t k s, wf t -> reach t k s ->
  (forall i h c x r, nth_error (thr s) i = Some (D h c x :: r) -> if parent t h then (1 <= fst (val s h))%Z else (1 <= root s)%Z) /\
  (forall i h x r, nth_error (thr s) i = Some (D h DCas x :: r) -> (1 <= fst x)%Z) /\ (0 < m t -> (0 <= root s)%Z).
Proof.
  intros t k s WF R. pose proof (reach_inv _ _ _ WF R) as I. split; [|split].
  - intros i h c x r N. destruct (parent t h) as [q|] eqn:P.
    + eapply dread_pos; eauto. split; [|congruence]. destruct (ok_top _ _ _ _ _ I N) as [O _]. destruct c; apply O.
    + assert (L : h < m t) by (destruct (ok_top _ _ _ _ _ I N) as [O _]; destruct c; apply O). pose proof (I_eq _ _ I h L) as E. unfold tot, amt in E. rewrite P in E. rewrite sumt_concat in E.
      assert (F : In (D h c x) (concat (thr s))) by (eapply nth_concat; [exact N|left; reflexivity]). pose proof (own_in t _ h _ F) as O. cbn [cf] in O. rewrite Nat.eqb_refl in O. cbn [b2z] in O. pose proof (kids_pos t (val s) (m t) h). lia.
  - intros i h x r N. destruct (ok_top _ _ _ _ _ I N) as [O _]. apply O.
  - intros M. assert (M1 : m t - 1 < m t) by lia. pose proof (I_eq _ _ I (m t - 1) M1) as E. unfold tot, amt in E. destruct (parent t (m t - 1)) as [q|] eqn:P; [pose proof (proj1 WF (m t - 1) q M1 P); lia|].
    pose proof (kids_pos t (val s) (m t) (m t - 1)). pose proof (sumt_pos t (thr s) (m t - 1)). lia.
Qed.
Print Assumptions C41_no_fault.
(** nobody waits for anybody: every thread with an operation in progress can take a step *)
Theorem C41_nonblocking : forall t k s i f r, wf t -> reach t k s -> nth_error (thr s) i = Some (f :: r) -> exists s1, step t s i Go = Some s1.
Proof.
  intros t k s i f r WF R N. pose proof (reach_inv _ _ _ WF R) as I. destruct (ok_top _ _ _ _ _ I N) as [O [T _]]. unfold step. rewrite N. destruct f as [h c x u ok|h c x].
  - destruct c; cbn [arr act_top okf] in *; try destruct T; eauto.
    + destruct (parent t h); eauto.
    + destruct (fst x =? half)%Z; eauto. destruct O as [[_ P] _]. destruct (parent t h); [eauto|congruence].
    + destruct u; eauto. destruct O as [[_ P] _]. destruct (parent t h); [eauto|congruence].
  - destruct c; cbn [dep]; eauto. destruct (parent t h); eauto.
Qed.
Print Assumptions C41_nonblocking.
(** the constructor builds such a tree, and an index is mapped to one of its leaves *)
Theorem C41_built : forall d idx, (0 <= idx)%Z -> wf (built d) /\ leaf d idx < 2 ^ d <= m (built d) /\ forall h, h < m (built d) -> parent (built d) h <> Some (leaf d idx) \/ 2 ^ d = 1.
Proof.
  intros d idx H. assert (P : 0 < 2 ^ d) by (pose proof (Nat.pow_nonzero 2 d); lia). assert (E : 2 ^ (d + 1) = 2 * 2 ^ d) by (rewrite Nat.pow_add_r; cbn; lia).
  assert (LF : leaf d idx < 2 ^ d).
  { unfold leaf. rewrite Z.shiftl_mul_pow2 by lia. rewrite Z.mul_1_l. replace (2 ^ Z.of_nat d - 1)%Z with (Z.ones (Z.of_nat d)) by (rewrite Z.ones_equiv; lia). rewrite Z.land_ones by lia.
    assert (Q : (2 ^ Z.of_nat d)%Z = Z.of_nat (2 ^ d)) by (rewrite Nat2Z.inj_pow; reflexivity). rewrite Q. pose proof (Z.mod_pos_bound (Z.shiftr idx 2) (Z.of_nat (2 ^ d))). lia. }
  split; [|split].
  - split; unfold built; cbn [m parent]; rewrite E.
    + intros h p L Q. destruct (Nat.ltb_spec h (2 * 2 ^ d - 2)); [|discriminate]. assert (QQ : p = h / 2 + 2 ^ d) by congruence. subst p. pose proof (Nat.div_mod h 2 ltac:(discriminate)). pose proof (Nat.mod_upper_bound h 2 ltac:(discriminate)). lia.
    + intros h L Q. destruct (Nat.ltb_spec h (2 * 2 ^ d - 2)); [discriminate|]. lia.
  - unfold built. cbn [m]. lia.
  - intros h L. destruct (Nat.eq_dec (2 ^ d) 1) as [->|N]; [auto|]. left. unfold built. cbn [parent]. destruct (h <? _); [|discriminate]. intros Q. injection Q as Q. lia.
Qed.
Print Assumptions C41_built.
(** one complete arrival at a leaf whose count is already positive: load, CAS, two skipped tests, return *)
Definition again : list (nat * act) := (0, Arrive 0) :: repeat (0, Go) 5.
(** the count of a node is stored in a char, and does not fit it: 128 arrivals at one leaf. (The code's count is then -128 and every further arrival spins.) *)
Theorem C41_fits_refuted : ~ forall t k s h, wf t -> reach t k s -> (fst (val s h) <= 127)%Z.
Proof.
  intros H. set (l := ((0, Arrive 0) :: repeat (0, Go) 7) ++ concat (repeat again 127)).
  assert (RR : forall t k l s s1, reach t k s -> run t s l = Some s1 -> reach t k s1).
  { intros t k l0. induction l0 as [|[i a] l0 IH]; intros s s1 R Q; cbn [run] in Q; [injection Q as <-; auto|]. destruct (step t s i a) as [s2|] eqn:E; [|discriminate]. apply (IH s2); auto. apply (reach_step t k s i a); auto. }
  destruct (run (built 1) (start 1) l) as [s|] eqn:E; [|vm_compute in E; discriminate].
  assert (A1 : fst (val s 0) = 128%Z).
  { change (match Some s with Some s => fst (val s 0) = 128%Z | None => False end). rewrite <- E. vm_compute. reflexivity. }
  pose proof (H (built 1) 1 s 0 (proj1 (C41_built 1 0 ltac:(lia))) (RR _ _ _ _ _ (reach_start _ _) E)). lia.
Qed.
Print Assumptions C41_fits_refuted.
Definition view (s : option state) := match s with Some s => Some (map (val s) [0; 1], root s, client s 0, map (@length frame) (thr s)) | None => None end.
(** thread 0 makes the count one half and is held up; thread 1 helps it to one and arrives too; thread 0 then has one arrival at the root too many and undoes it *)
Example helping :
  let l1 := [(0, Arrive 0); (0, Go); (0, Go); (0, Go); (0, Go); (0, Go)] in
  let l2 := l1 ++ [(1, Arrive 0); (1, Go); (1, Go); (1, Go); (1, Go); (1, Go); (1, Go); (1, Go); (1, Go); (1, Go); (1, Go); (1, Go)] in
  let l3 := l2 ++ [(0, Go); (0, Go); (0, Go); (0, Go)] in
  view (run (built 1) (start 2) l1) = Some ([((-1)%Z, 1); (0%Z, 0)], 1%Z, 0, [1; 0]) /\
  view (run (built 1) (start 2) l2) = Some ([(2%Z, 1); (0%Z, 0)], 2%Z, 1, [1; 0]) /\
  view (run (built 1) (start 2) l3) = Some ([(2%Z, 1); (0%Z, 0)], 1%Z, 2, [0; 0]).
Proof. vm_compute. auto. Qed.
