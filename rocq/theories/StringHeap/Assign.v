From Coq Require Import ZArith List Bool Lia ZifyBool Permutation.
From Verif.StringHeap Require Import Model Spec Proofs Ops Steps.
Import ListNotations.
Open Scope Z_scope.

Lemma set_id : forall w l x, NoDup (names l) -> find w l = Some x -> set w (adr x) (len x) l = l.
Proof.
  intros w l x N E. apply find_some in E. destruct E as [I Q]. unfold set. rewrite <- (map_id l) at 2. apply map_ext_in. intros k K.
  destruct (eqn_spec (who k) w) as [Y|Y]; auto. assert (k = x) as ->.
  { pose proof (find_in l k N K). pose proof (find_in l x N I). congruence. }
  rewrite <- Q. destruct x. reflexivity.
Qed.
Lemma assign_string_same : forall h v w y t u h1, Inv same h v -> v w = Some u -> v y = Some t -> assign_string h w y = Ok h1 -> tidy same (fin h1) (start h1) (hs h1).
Proof.
  intros h v w y t u h1 [R T] V Y E. destruct (assign_string_rep h v w y t u R V Y) as (h' & x & E' & FX & HE & _).
  assert (h1 = h') as -> by congruence. clear E E'. rewrite HE. cbn [with_hs fin start hs]. pose proof (r_nodup _ _ R) as N.
  assert (IW : In w (names (hs h))) by (apply (r_dom _ _ R); congruence). assert (IY : In y (names (hs h))) by (apply (r_dom _ _ R); congruence).
  destruct (eqn_spec w y) as [->|D].
  - rewrite set_id by auto. pose proof (after_same _ _ _ _ _ T FX) as F. pose proof (find_some _ _ _ FX) as [IX QX].
    assert (HX : H y (adr x) (len x) = x) by (rewrite <- QX; destruct x; reflexivity). rewrite HX.
    (* the handle stays where it is *)
    destruct (split_at _ _ IY) as (p & k & q & EL & EK & NP). assert (k = x) as ->.
    { pose proof (find_in (hs h) k N) as A. rewrite EK in A. specialize (A ltac:(rewrite EL; apply in_or_app; right; left; auto)). congruence. }
    rewrite EL in F. rewrite after_at in F by auto. unfold move_after. rewrite EL, after_at by auto. rewrite EL in N, T. pose proof (nodup_mid _ _ _ N) as [NA NB].
    assert (RM : remove (who x) (p ++ x :: q) = p ++ q).
    { rewrite remove_app, (remove_other _ p) by auto. f_equal. cbn [remove filter]. rewrite eqn_refl. cbn [negb]. apply (remove_other (who x) q). auto. }
    destruct q as [|z q]; cbn [stop_at].
    + rewrite RM, app_nil_r. auto.
    + inversion F; subst. rewrite (proj2 (Z.ltb_ge _ _)) by auto. cbn [names map In] in NB. destruct (eqn_spec (who z) (who x)) as [Q|Q]; [tauto|].
      rewrite RM, add_before_at; auto. change (p ++ x :: z :: q) with (p ++ [x] ++ z :: q) in N. rewrite app_assoc in N. apply nodup_mid in N.
      rewrite names_app, in_app_iff in N. tauto.
  - set (s := H w (adr x) (len x)). assert (IS : In s (set w (adr x) (len x) (hs h))) by (apply set_in; auto).
    rewrite (move_same _ s y); cbn [s who]; auto.
    + rewrite set_remove. assert (FR : find y (remove w (hs h)) = Some x).
      { apply find_some in FX. destruct FX as [IX <-]. apply find_in; [apply remove_nodup; auto|]. apply remove_in. auto. }
      pose proof (tidy_same_remove _ _ _ w T) as TR. apply (tidy_add_after same _ _ _ y x); [apply same_fine|auto|auto| |].
      { intros g. unfold same. cbn [s adr len]. lia. }
      unfold same. cbn [s adr len]. apply find_some in FX. destruct FX as [IX _]. pose proof (proj1 (Forall_forall _ _) (r_in _ _ R) x IX) as B. unfold inside in B. lia.
    + rewrite set_names. auto.
    + rewrite set_names. auto.
    + pose proof (after_same _ _ _ _ _ T FX) as F. unfold s. cbn [adr]. clear -F D.
      assert (A : forall l, after y (set w (adr x) (len x) l) = set w (adr x) (len x) (after y l)).
      { induction l as [|z l IH]; cbn [set map after]; auto. destruct (eqn_spec (who z) w) as [Q|Q]; cbn [who].
        - destruct (eqn_spec w y); [congruence|]. destruct (eqn_spec (who z) y); [congruence|]. apply IH.
        - destruct (eqn (who z) y); auto. }
      rewrite A. unfold set. apply Forall_map. eapply Forall_impl; [|exact F]. intros k K. cbv beta in *. destruct (eqn (who k) w); cbn [adr] in *; lia.
Qed.
Section S.
Variables (low : Z -> Z -> bool) (place : heap -> Z -> option Z).
Hypothesis G : good place.
Lemma get_find : forall w h k, find w (hs h) = Some k -> get w h = Ok k.
Proof. intros w h k E. unfold get. rewrite E. auto. Qed.
(** appending bytes from outside the heap *)
Lemma append_rep : forall W h v w s l, fine W -> Inv W h v -> v w = Some s -> append low place h w (Bytes l) = NoMem \/
  exists h1, append low place h w (Bytes l) = Ok h1 /\ Rep h1 (nupd v w (Some (s ++ l))).
Proof.
  intros W h v w s l F IV V. destruct (rep_get _ _ _ _ (proj1 IV) V) as (x & E & FX & I & Q & TX & IN). unfold append. rewrite E. cbn [bind at_addr bsize load].
  set (n := Z.of_nat (length l)). destruct (Z.eqb_spec (adr x + len x) (fin h)) as [EN|EN].
  - destruct (alloc_inv low place G W h v n F IV) as [A|(h1 & a & A & R1 & T1 & I1 & F1 & K1)]; [lia|left; rewrite A; reflexivity|].
    right. rewrite A. cbn [bind]. destruct (K1 w x FX) as (x1 & FX1 & KP). destruct KP as (Q1 & L1 & TX1 & EN1). specialize (EN1 EN).
    rewrite (get_find _ _ _ FX1). cbn [bind]. rewrite EN1.
    destruct (store_ok h1 v a l R1) as (h2 & S2 & R2 & HE2).
    + eapply Forall_impl; [|exact I1]. unfold inside. intros; lia.
    + pose proof (tidy_le _ _ _ _ T1). auto.
    + destruct (r_bounds _ _ R1). fold n. lia.
    + rewrite S2. cbn [bind]. eexists. split; [reflexivity|].
      apply find_some in FX1. destruct FX1 as [IX1 QX1]. pose proof (proj1 (Forall_forall _ _) I1 x1 IX1) as B1. unfold inside in B1, IN.
      assert (NW : In w (names (hs h2))) by (rewrite HE2; cbn [hs]; rewrite <- QX1; apply in_map; auto).
      assert (TE : read (mem h2) (adr x1) (len x + n) = s ++ l).
      { rewrite read_app by lia. f_equal.
        - rewrite TX, <- TX1, L1. apply read_ext. rewrite HE2. cbn [mem]. intros z Z. apply write_out. lia.
        - replace (adr x1 + len x) with a by lia. rewrite HE2. cbn [mem]. apply read_write. }
      pose proof (rep_set h2 v w (adr x1) (len x + n) R2 NW) as R3. rewrite TE in R3. apply R3.
      unfold inside. cbn [adr len]. rewrite HE2. cbn [start fin]. lia.
  - unfold inside in IN. destruct (alloc_inv low place G W h v (len x + n) F IV) as [A|(h1 & a & A & R1 & T1 & I1 & F1 & K1)]; [lia|left; rewrite A; reflexivity|].
    right. rewrite A. cbn [bind]. destruct (K1 w x FX) as (x1 & FX1 & KP). destruct KP as (Q1 & L1 & TX1 & _).
    rewrite (get_find _ _ _ FX1). cbn [bind load]. pose proof (find_some _ _ _ FX1) as [IX1 QX1]. pose proof (proj1 (Forall_forall _ _) I1 x1 IX1) as B1. unfold inside in B1.
    pose proof (r_bounds _ _ R1) as [Z1 Z2 Z3 Z4 Z5].
    rewrite ok_in by lia. cbn [bind]. rewrite TX1, <- TX.
    assert (SL : Z.of_nat (length s) = len x) by (rewrite TX, read_length; lia).
    unfold store at 1. cbn [with_hs start ext fin init curr mem hs]. rewrite ok_in by lia. cbn [bind].
    set (h2 := Heap (start h1) (fin h1) (ext h1) (init h1) (curr h1) (write (mem h1) a s) (set w a (len x1) (hs h1))).
    assert (NW : In w (names (hs h1))) by (rewrite <- QX1; apply in_map; auto).
    assert (FX2 : find w (hs h2) = Some (H w a (len x1))).
    { change w with (who (H w a (len x1))) at 1. cbn [h2 hs]. apply find_in; [rewrite set_names; apply (r_nodup _ _ R1)|apply set_in; auto]. }
    rewrite (get_find _ _ _ FX2). cbn [bind adr len]. unfold store. cbn [h2 start ext fin init curr mem hs]. rewrite ok_in by (fold n; lia). cbn [bind].
    eexists. split; [reflexivity|]. cbn [with_hs start ext fin init curr mem hs].
    (* the two stores together *)
    destruct (store_ok h1 v a (s ++ l) R1) as (h3 & S3 & R3 & HE3).
    + eapply Forall_impl; [|exact I1]. unfold inside. intros; lia.
    + lia.
    + rewrite app_length, Nat2Z.inj_add. fold n. lia.
    + set (m2 := write (write (mem h1) a s) (a + len x1) l).
      assert (SS : set w a (len x + n) (set w a (len x1) (hs h1)) = set w a (len x + n) (hs h1)).
      { unfold set. rewrite map_map. apply map_ext. intros k. destruct (eqn_spec (who k) w) as [Y|Y]; cbn [who]; [rewrite eqn_refl; auto|].
        destruct (eqn_spec (who k) w); congruence. }
      rewrite SS.
      assert (ME : forall z, mem h3 z = m2 z).
      { intros z. rewrite HE3. cbn [mem]. unfold m2. assert (z < a \/ a <= z < a + len x \/ a + len x <= z < a + (len x + n) \/ a + (len x + n) <= z) as [X|[X|[X|X]]] by lia.
        - rewrite !write_out; auto; lia.
        - rewrite write_in by (rewrite app_length; lia). rewrite write_out by lia. rewrite write_in by lia. rewrite app_nth1 by lia. auto.
        - rewrite write_in by (rewrite app_length; lia). rewrite write_in by lia. rewrite app_nth2 by lia. f_equal. lia.
        - rewrite !write_out; auto; rewrite ?app_length; lia. }
      assert (R4 : Rep (Heap (start h1) (fin h1) (ext h1) (init h1) (curr h1) m2 (hs h1)) v).
      { destruct R3 as [B N I3 T3 D3]. rewrite HE3 in *. cbn [start ext fin init curr mem hs] in *. constructor; cbn [start ext fin init curr mem hs]; auto.
        - destruct B. constructor; auto.
        - eapply Forall_impl; [|exact T3]. unfold shows. intros k K. rewrite K. f_equal. apply read_ext. intros. apply ME. }
      pose proof (rep_set _ v w a (len x + n) R4 NW) as R5. cbn [with_hs start ext fin init curr mem hs] in R5.
      assert (TE : read m2 a (len x + n) = s ++ l).
      { rewrite (read_ext m2 (mem h3)) by (intros; symmetry; apply ME). rewrite HE3. cbn [mem].
        replace (len x + n) with (Z.of_nat (length (s ++ l))) by (rewrite app_length; fold n; lia). apply read_write. }
      rewrite TE in R5. apply R5. unfold inside. cbn [adr len]. lia.
Qed.
Lemma append_nothing : forall h v k b, Rep h v -> find None (hs h) = Some k -> adr k + len k = fin h -> exists m,
  append low place h None (At b 0) = Ok (Heap (start h) (fin h) (ext h) (init h) (curr h) m (hs h)) /\ forall z, m z = mem h z.
Proof.
  intros h v k b R FK E. pose proof (r_bounds _ _ R) as [B1 B2 B3 B4 B5]. unfold append. rewrite (get_find _ _ _ FK). cbn [bind at_addr bsize load].
  pose proof (set_id _ _ _ (r_nodup _ _ R) FK) as SI. rewrite Z.add_0_r.
  destruct (b =? adr k + len k).
  - rewrite SI. exists (mem h). destruct h; auto.
  - rewrite E, Z.eqb_refl. unfold alloc. rewrite Z.add_0_r. rewrite (proj2 (Z.ltb_ge _ _)) by lia. cbn [bind]. unfold get. cbn [hs]. rewrite FK. cbn [bind].
    rewrite ok_zero. cbn [bind read map]. unfold store. cbn [start ext length]. change (Z.of_nat (length (read (mem h) b 0))) with 0. rewrite ok_zero. cbn [bind with_hs start fin ext init curr mem hs].
    rewrite SI. cbn [with_hs start fin ext init curr mem hs]. rewrite ?Z.add_0_r. eexists. split; [reflexivity|]. intros z. apply write_out. cbn. lia.
Qed.
Lemma assign_bytes : forall W h v w u l, fine W -> Inv W h v -> v None = None -> v (Some w) = Some u -> assign_buffer low place h (Some w) (Bytes l) = NoMem \/
  exists h1, assign_buffer low place h (Some w) (Bytes l) = Ok h1 /\ Rep h1 (nupd v (Some w) (Some l)) /\
   ((forall hi lo x, tidy W hi lo x -> tidy W hi lo (remove (Some w) x)) -> tidy W (fin h1) (start h1) (hs h1)).
Proof.
  intros W h v w u l F IV VN V. set (wn := Some w) in *. assert (DW : wn <> None) by (unfold wn; congruence).
  destruct (rep_get _ _ _ _ (proj1 IV) V) as (x & E & _). unfold assign_buffer. rewrite E. cbn [bind].
  destruct (construct_ok low place G W h v None [] F IV VN) as [C|(h1 & C & IV1 & k & p & HL & KW & KE & KL)]; [left; rewrite C; reflexivity|].
  rewrite C. cbn [bind]. cbn [length] in KL. set (v1 := nupd v None (Some [])) in *.
  assert (FK : find None (hs h1) = Some k). { rewrite <- KW. apply find_in; [apply (r_nodup _ _ (proj1 IV1))|rewrite HL; apply in_or_app; right; left; auto]. }
  (* the first append *)
  set (n := Z.of_nat (length l)). remember (append low place h1 None (Bytes l)) as ap eqn:AP. unfold append in AP. rewrite (get_find _ _ _ FK) in AP. cbn [bind at_addr bsize load] in AP.
  rewrite KE, Z.eqb_refl in AP. fold n in AP.
  destruct (alloc_inv low place G W h1 v1 n F IV1) as [A|(h2 & a & A & R2 & T2 & I2 & F2 & K2)]; [lia|left; rewrite A in AP; rewrite AP; reflexivity|].
  rewrite A in AP. cbn [bind] in AP. destruct (K2 None k FK) as (k2 & FK2 & KP). destruct KP as (Q2 & L2 & _ & EN2). specialize (EN2 KE).
  rewrite (get_find _ _ _ FK2) in AP. cbn [bind] in AP.
  destruct (store_ok h2 v1 a l R2) as (h3 & S3 & R3 & HE3).
  { eapply Forall_impl; [|exact I2]. unfold inside. intros; lia. }
  { pose proof (tidy_le _ _ _ _ T2). auto. }
  { destruct (r_bounds _ _ R2). fold n. lia. }
  rewrite EN2, S3 in AP. cbn [bind] in AP. rewrite KL in AP. cbn [Z.of_nat] in AP. rewrite Z.add_0_l in AP.
  assert (AK : adr k2 = a) by lia. rewrite AK in AP. rewrite AP. cbn [bind].
  set (h4 := with_hs h3 (set None a n (hs h3))).
  assert (NN : In None (names (hs h2))). { apply find_some in FK2. destruct FK2 as [I' Q']. rewrite <- Q'. apply in_map. auto. }
  assert (B2 := r_bounds _ _ R2). destruct B2 as [Y1 Y2 Y3 Y4 Y5]. pose proof (tidy_le _ _ _ _ T2) as LE2.
  assert (R4 : Rep h4 (nupd v1 None (Some l))).
  { pose proof (rep_set h3 v1 None a n R3) as R4. replace (read (mem h3) a n) with l in R4 by (rewrite HE3; cbn [mem]; symmetry; apply read_write).
    apply R4; [rewrite HE3; cbn [hs]; auto|]. unfold inside. rewrite HE3. cbn [start fin adr len]. lia. }
  set (v4 := nupd v1 None (Some l)) in *.
  assert (V4 : v4 wn = Some u). { unfold v4, v1. rewrite !nupd_other by auto. auto. }
  destruct (rep_get _ _ _ _ R4 V4) as (x4 & E4 & _). rewrite E4. cbn [bind].
  assert (FK4 : find None (hs h4) = Some (H None a n)).
  { change (@None nat) with (who (H None a n)) at 1. apply find_in; [apply (r_nodup _ _ R4)|]. cbn [h4 with_hs hs]. rewrite HE3. cbn [hs]. apply set_in. auto. }
  destruct (append_nothing h4 v4 _ (adr x4 + len x4) R4 FK4) as (m5 & E5 & M5); [cbn [adr len]; unfold h4; rewrite HE3; cbn [with_hs fin]; lia|].
  rewrite E5. cbn [bind]. unfold get. cbn [hs]. rewrite FK4. cbn [bind adr bsize]. fold n. right. eexists. split; [reflexivity|].
  cbn [with_hs start fin ext init curr mem hs].
  (* the shape of the list *)
  assert (SH : exists q, hs h2 = q ++ [k2] /\ ~ In None (names q)).
  { pose proof (r_nodup _ _ R2) as N2. assert (IK2 : In k2 (hs h2)) by (apply find_some in FK2; tauto).
    destruct (K2 None k FK) as (k2' & _ & _).
    clear -HL KW K2 A N2 FK2 FK IV1 Q2 G F T2 I2 EN2 L2 KL AK R2.
    destruct (split_at (hs h2) None) as (q & k' & r & EL & EK & NQ). { apply find_some in FK2. destruct FK2 as [I' Q']. rewrite <- Q'. apply in_map. auto. }
    assert (k' = k2). { pose proof (find_in (hs h2) k' N2) as B. rewrite EK in B. rewrite FK2 in B. specialize (B ltac:(rewrite EL; apply in_or_app; right; left; auto)). congruence. }
    subst k'. exists q. split; auto. rewrite EL. f_equal. f_equal.
    (* names are kept by alloc *)
    assert (NE : names (hs h2) = names (hs h1)).
    { destruct (alloc_ok low place G W h1 (hs h1) [] n F (r_bounds _ _ (proj1 IV1))) as [X|(h2' & a' & l1 & t1 & X & _ & HL2 & _ & TN & _ & _ & _ & KK)]; auto.
      - symmetry. apply app_nil_r.
      - left; auto.
      - apply (proj2 IV1).
      - unfold n. lia.
      - congruence.
      - assert (h2' = h2) by congruence. subst h2'. destruct t1; [|discriminate]. rewrite app_nil_r in HL2. subst l1. apply (kept_names _ _ _ _ _ _ KK). }
    rewrite EL, HL, !names_app in NE. cbn [names map] in NE.
    destruct r as [|r0 r]; auto. exfalso. assert (NN : names (r0 :: r) <> []) by discriminate. destruct (exists_last NN) as (r' & e & ER).
    cbn [names map] in ER, NE. rewrite ER in NE. rewrite app_comm_cons, app_assoc in NE. apply app_inj_tail in NE. destruct NE as [_ NE].
    rewrite EL, names_app in N2. cbn [names map] in N2. rewrite ER in N2. apply NoDup_remove_2 in N2. apply N2. rewrite EK, NE, KW, !in_app_iff. right. right. left. auto. }
  destruct SH as (q & HQ & NQ).
  assert (HL4 : hs h4 = q ++ [H None a n]). { cbn [h4 with_hs hs]. rewrite HE3. cbn [hs]. rewrite HQ. apply set_snoc; [auto|congruence]. }
  rewrite HL4.
  assert (SQ : set wn a n (q ++ [H None a n]) = set wn a n q ++ [H None a n]).
  { unfold set. rewrite map_app. cbn [map who]. destruct (eqn_spec None wn); [congruence|]. auto. }
  rewrite SQ. assert (NSQ : ~ In None (names (set wn a n q))) by (rewrite set_names; auto).
  unfold move_after. rewrite after_at by auto. cbn [stop_at who].
  assert (NRQ : ~ In None (names (remove wn q))).
  { intros X. apply NQ. unfold names in *. apply in_map_iff in X. destruct X as (z & <- & X). apply in_map. apply remove_in in X. tauto. }
  assert (RE : remove None (remove wn (set wn a n q ++ [H None a n]) ++ [H wn a n]) = remove wn q ++ [H wn a n]).
  { rewrite (remove_app wn), set_remove, !(remove_app None), (remove_other None (remove wn q)) by auto.
    assert (RN : remove None (remove wn [H None a n]) = []) by (unfold remove; cbn [filter who]; destruct (eqn None wn); reflexivity).
    rewrite RN, app_nil_r. f_equal. }
  rewrite RE. split.
  - (* the strings *)
    pose proof (rep_remove _ _ None R4) as R5. pose proof (rep_remove _ _ wn R5) as R6. cbn [with_hs hs] in R6. rewrite HL4 in R6.
    assert (RL : remove wn (remove None (q ++ [H None a n])) = remove wn q).
    { rewrite (remove_app None). rewrite (remove_other None q) by auto. cbn [remove filter who eqn negb]. rewrite app_nil_r. auto. }
    rewrite RL in R6. pose proof (rep_cons _ _ (H wn a n) R6 (remove_names wn q)) as R7. cbn [with_hs who adr len hs mem] in R7.
    assert (R8 := R7 ltac:(unfold inside, h4; rewrite HE3; cbn [with_hs start fin adr len]; lia)). clear R7.
    assert (TE : read (mem h4) a n = l) by (unfold h4; rewrite HE3; cbn [with_hs mem]; apply read_write). rewrite TE in R8.
    pose proof (rep_perm _ _ (remove wn q ++ [H wn a n]) (Permutation_cons_append (remove wn q) (H wn a n) : Permutation (hs (with_hs _ (H wn a n :: remove wn q))) _) R8) as R9. cbn [with_hs start fin ext init curr mem hs] in R9.
    destruct R9 as [C1 C2 C3 C4 C5]. cbn [with_hs start fin ext init curr mem hs] in C1, C2, C3, C4, C5. constructor; cbn [start fin ext init curr mem hs]; auto.
    + destruct C1. constructor; auto.
    + eapply Forall_impl; [|exact C4]. unfold shows. intros z K. rewrite (read_ext m5 (mem h4)) by (intros; apply M5). rewrite <- K.
      unfold nupd, v4, v1, nupd. destruct (eqn (who z) wn) eqn:X1; auto. destruct (eqn_spec (who z) None) as [X2|X2]; auto. rewrite X2. auto.
    + intros y Y. apply C5. unfold nupd, v4, v1, nupd in *. destruct (eqn y wn); auto. destruct (eqn_spec y None) as [->|X2]; auto.
  - intros TR. assert (TQ : tidy W a (start h2) q). { apply tidy_unsnoc with k2; auto; [rewrite <- HQ; auto|lia]. }
    assert (S4 : start h4 = start h2) by (unfold h4; rewrite HE3; reflexivity). assert (F4 : fin h4 = a + n) by (unfold h4; rewrite HE3; cbn [with_hs fin]; auto).
    rewrite S4, F4. apply tidy_snoc with a; cbn [adr len]; [apply TR; auto|lia|lia|lia].
Qed.
End S.
