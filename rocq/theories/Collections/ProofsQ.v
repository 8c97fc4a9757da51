(** Stack and Queue represent lists. *)
From Coq Require Import List Bool Arith Lia.
From Verif.Collections Require Import Spec Model Rep.
Import ListNotations.
(** each node points to the next, the last to itself *)
Fixpoint lnk (f : nat -> option nat) (xs : list nat) : Prop := match xs with [] => True | a :: r => f a = Some (hd a r) /\ lnk f r end.
Fixpoint seg (f : nat -> option nat) (u : list nat) (a : nat) : Prop := match u with [] => True | x :: r => f x = Some (hd a r) /\ seg f r a end.
Lemma lnk_app f u a v : lnk f (u ++ a :: v) <-> seg f u a /\ lnk f (a :: v).
Proof. induction u as [|x u IH]; cbn [app seg]; [tauto|]. cbn [lnk] in *. rewrite IH. destruct u; cbn [app hd]; tauto. Qed.
Lemma lnk_ext f g xs : (forall x, In x xs -> g x = f x) -> lnk f xs -> lnk g xs.
Proof. induction xs as [|a r IH]; cbn [lnk]; auto. intros E [A B]. split; [rewrite E; auto; now left|]. apply IH; auto. intros x H. apply E. now right. Qed.
Lemma seg_ext f g u a : (forall x, In x u -> g x = f x) -> seg f u a -> seg g u a.
Proof. induction u as [|x r IH]; cbn [seg]; auto. intros E [A B]. split; [rewrite E; auto; now left|]. apply IH; auto. intros y H. apply E. now right. Qed.
Definition lk h xs := lnk (nxt h) xs.
Definition null h x := nxt h x = None.
Definition hdS h l xs := root h l = hd_error xs.
Definition hdQ h l xs := root h l = hd_error xs /\ last h l = hd_error (rev xs).
Lemma lk_e h h' xs : (forall x, In x xs -> same h h' x) -> lk h xs -> lk h' xs.
Proof. intros E. apply lnk_ext. intros x I. apply E, I. Qed.
Lemma null_e h h' x : same h h' x -> null h x -> null h' x. Proof. unfold null. intros [-> _]. auto. Qed.
Lemma hdS_e h h' l xs : root h' l = root h l -> last h' l = last h l -> hdS h l xs -> hdS h' l xs. Proof. unfold hdS. congruence. Qed.
Lemma hdQ_e h h' l xs : root h' l = root h l -> last h' l = last h l -> hdQ h l xs -> hdQ h' l xs. Proof. unfold hdQ. intros -> ->. auto. Qed.
Notation RS := (Rep lk hdS null).
Notation RQ := (Rep lk hdQ null).
Ltac sf := cbn [setN setB setR setL nxt bck root last] in *.
Ltac ru := repeat first [rewrite upd_same in *|rewrite upd_other in * by congruence].
Lemma init_RS : RS init none. Proof. constructor; unfold none; intros; try contradiction; try exact I; try reflexivity; constructor. Qed.
Lemma init_RQ : RQ init none. Proof. constructor; unfold none; intros; try contradiction; try exact I; try reflexivity; try constructor; reflexivity. Qed.
Lemma listed_null h x : null h x -> listed h x = false. Proof. unfold null, listed. now intros ->. Qed.
Lemma lnk_in f u x v : lnk f (u ++ x :: v) -> f x = Some (hd x v). Proof. rewrite lnk_app. cbn [lnk]. tauto. Qed.
Lemma listed_in h u x v : lk h (u ++ x :: v) -> listed h x = true. Proof. intro K. apply lnk_in in K. unfold listed. now rewrite K. Qed.
Lemma frames (P Q : nat -> Prop) h h' : (forall x, P x -> Q x -> nxt h' x = nxt h x) -> bck h' = bck h -> forall x, P x -> Q x -> same h h' x.
Proof. intros A B x p q. split; auto. now rewrite B. Qed.

Lemma push_lnk f n xs : ~ In n xs -> lnk f xs -> lnk (upd f n (Some (hd n xs))) (n :: xs).
Proof. intros N K. cbn [lnk]. ru. split; auto. apply lnk_ext with f; auto. intros x I. apply upd_other. intros ->. auto. Qed.
Lemma nd_cons {A} (a : A) r : NoDup (a :: r) -> ~ In a r /\ NoDup r. Proof. intro N. inversion N; auto. Qed.
Lemma nd_mid {A} (p : list A) a q : NoDup (p ++ a :: q) -> ~ In a p /\ ~ In a q /\ NoDup (p ++ q).
Proof. intro N. pose proof (NoDup_remove_1 _ _ _ N) as M. apply NoDup_remove_2 in N. rewrite in_app_iff in N. tauto. Qed.
Lemma nd_split {A} (p q : list A) : NoDup (p ++ q) -> NoDup p /\ NoDup q /\ forall x, In x p -> ~ In x q.
Proof. induction p as [|a p IH]; cbn [app]; intro N; [split; [constructor|auto]|]. apply nd_cons in N as [N1 N2]. destruct (IH N2) as (A1 & A2 & A3). rewrite in_app_iff in N1. split; [constructor; tauto|]. split; auto. intros x [<-|I]; [tauto|auto]. Qed.
Lemma nd_join {A} (p q : list A) : NoDup p -> NoDup q -> (forall x, In x p -> ~ In x q) -> NoDup (p ++ q).
Proof. induction p as [|a p IH]; cbn [app]; auto. intros N1 N2 D. apply nd_cons in N1 as [N1 N3]. constructor; [|apply IH; auto; intros x I; apply D; now right]. rewrite in_app_iff. intros [I|I]; auto. exact (D a (or_introl eq_refl) I). Qed.

(** Stack *)
Lemma s_add_ok h L l n : RS h L -> unlisted L n -> exists h', s_add h l n = Some h' /\ RS h' (set L l (n :: L l)).
Proof.
  intros R U. unfold s_add. rewrite (listed_null h n (rU _ _ _ _ _ R n U)). eexists. split; [reflexivity|].
  apply (rep_one lk hdS null lk_e hdS_e null_e h); auto.
  - intros k N. sf. now ru.
  - constructor; [apply U|apply (rN _ _ _ _ _ R)].
  - unfold hdS. sf. now ru.
  - pose proof (rH _ _ _ _ _ R l) as Hr. pose proof (rK _ _ _ _ _ R l) as K. unfold hdS in Hr. unfold lk in *. sf. rewrite Hr.
    replace (match hd_error (L l) with Some r => Some r | None => Some n end) with (Some (hd n (L l))) by (now destruct (L l)). apply push_lnk; auto.
  - intros x [<-|I]; auto.
  - apply frames; [|reflexivity]. intros x I1 I2. sf. apply upd_other. intros ->. apply I2. now left.
  - intros x I1 I2. destruct I2. now right.
Qed.
Lemma drop_lnk f x v : NoDup (x :: v) -> lnk f (x :: v) -> (onb (f x) (Some x) = match v with [] => true | _ => false end) /\ (v <> [] -> f x = hd_error v) /\ lnk (upd f x None) v.
Proof.
  intros N [A B]. apply nd_cons in N as [N1 N2]. rewrite A. split; [|split].
  - destruct v as [|y v]; [apply onb_refl|]. apply onb_ne. cbn [hd]. intros [= ->]. apply N1. now left.
  - destruct v; [congruence|auto].
  - apply lnk_ext with f; auto. intros y I. apply upd_other. intros ->. auto.
Qed.
Lemma s_drop_ok h L l x v : RS h L -> L l = x :: v -> exists h', s_drop h l = (h', Some x) /\ RS h' (set L l v).
Proof.
  intros R E. pose proof (rH _ _ _ _ _ R l) as Hr. pose proof (rK _ _ _ _ _ R l) as K. pose proof (rN _ _ _ _ _ R l) as N. unfold hdS in Hr. unfold lk in K. rewrite E in *. cbn [hd_error] in Hr.
  destruct (drop_lnk _ _ _ N K) as (D1 & D2 & D3). apply nd_cons in N as [N1 N2].
  unfold s_drop. rewrite Hr. sf. ru. rewrite D1. eexists. split; [reflexivity|].
  apply (rep_one lk hdS null lk_e hdS_e null_e h); auto.
  - intros k Nk. destruct v; sf; now ru.
  - unfold hdS. destruct v as [|y v]; sf; ru; auto. apply D2. discriminate.
  - unfold lk. destruct v as [|y v]; sf; auto.
  - intros y I. rewrite E. left. now right.
  - apply frames; [|destruct v; reflexivity]. rewrite E. intros y I1 I2. assert (y <> x) by (intros ->; apply I1; now left). destruct v; sf; now ru.
  - rewrite E. intros y [<-|I] I2; [|contradiction]. unfold null. destruct v; sf; now ru.
Qed.
Lemma s_iter_ok h xs : NoDup xs -> lk h xs -> forall k, length xs <= k -> s_iter h (hd_error xs) k = Some xs.
Proof.
  induction xs as [|x r IH]; intros N K k Lk; [destruct k; reflexivity|]. destruct k as [|k]; [cbn [length] in Lk; lia|]. cbn [hd_error s_iter].
  destruct (drop_lnk _ _ _ N K) as (D1 & D2 & _). rewrite D1. apply nd_cons in N as [N1 N2]. destruct K as [_ K]. cbn [length] in Lk.
  assert (E : s_iter h (hd_error r) k = Some r) by (apply IH; auto; lia).
  destruct r as [|y r]; [destruct k; reflexivity|]. rewrite D2 by discriminate. now rewrite E.
Qed.
Definition big (L : lists) (o : op) (k : nat) : Prop := match o with Elems l | ElemsRev l | Remove l _ | DropTail l => length (L l) <= k | _ => True end.
Lemma sim_stack k h L o L' r : RS h L -> spec L o L' r -> stack_op o = true -> big L o k -> exists h', exec_stack k h o = Some (h', r) /\ RS h' L'.
Proof.
  intros R Sp So B. destruct Sp; cbn [stack_op] in So; try discriminate; cbn [exec_stack].
  - destruct (s_add_ok h L l n R) as (h' & A1 & A2); auto. rewrite A1. exists h'; auto.
  - destruct (s_drop_ok h L l x v R) as (h' & A1 & A2); auto. rewrite A1. exists h'; auto.
  - exists h. unfold s_drop. pose proof (rH _ _ _ _ _ R l) as Hr. unfold hdS in Hr. rewrite Hr, H. auto.
  - exists h. pose proof (rH _ _ _ _ _ R l) as Hr. unfold hdS in Hr. rewrite Hr. auto.
  - exists h. pose proof (rH _ _ _ _ _ R l) as Hr. unfold hdS in Hr. unfold empty. rewrite Hr. split; auto. now destruct (L l).
  - exists h. apply in_split in H as (u & v & E). pose proof (rK _ _ _ _ _ R l) as K. rewrite E in K. rewrite (listed_in h u n v K). auto.
  - exists h. rewrite (listed_null h n (rU _ _ _ _ _ R n H)). auto.
  - exists h. pose proof (rH _ _ _ _ _ R l) as Hr. unfold hdS in Hr. rewrite Hr, s_iter_ok; auto; [apply (rN _ _ _ _ _ R)|apply (rK _ _ _ _ _ R)].
Qed.

(** Queue *)
Ltac one h := apply (rep_one lk hdQ null lk_e hdQ_e null_e h); auto.
Lemma q_get h L l : RQ h L -> root h l = hd_error (L l) /\ last h l = hd_error (rev (L l)) /\ lnk (nxt h) (L l) /\ NoDup (L l).
Proof. intro R. destruct (rH _ _ _ _ _ R l). split; auto. split; auto. split; [apply (rK _ _ _ _ _ R)|apply (rN _ _ _ _ _ R)]. Qed.
Lemma q_addHead_ok h L l n : RQ h L -> unlisted L n -> exists h', q_addHead h l n = Some h' /\ RQ h' (set L l (n :: L l)).
Proof.
  intros R U. destruct (q_get h L l R) as (Hr & Hl & K & N). unfold q_addHead. rewrite (listed_null h n (rU _ _ _ _ _ R n U)), Hl.
  pose proof (U l) as Ul. destruct (L l) as [|x r] eqn:E.
  - cbn [rev hd_error]. eexists. split; [reflexivity|]. one h.
    + intros k Nk. sf. now ru.
    + constructor; auto.
    + unfold hdQ. sf. ru. auto.
    + unfold lk. sf. cbn [lnk hd]. ru. auto.
    + intros x [<-|[]]; auto.
    + apply frames; [|reflexivity]. intros x I1 I2. sf. apply upd_other. intros ->. apply I2. now left.
    + rewrite E. intros x [].
  - destruct (hd_error (rev (x :: r))) as [z|] eqn:Z; [|cbn [rev] in Z; destruct (rev r); discriminate].
    eexists. split; [reflexivity|]. one h.
    + intros k Nk. sf. now ru.
    + constructor; auto.
    + unfold hdQ. sf. ru. rewrite Hl. split; auto. cbn [rev] in *. rewrite <- app_assoc. destruct (rev r); cbn [app hd_error] in *; auto.
    + unfold lk. sf. rewrite Hr. cbn [hd_error]. apply (push_lnk (nxt h) n (x :: r)); auto.
    + rewrite E. intros y [<-|I]; auto.
    + apply frames; [|reflexivity]. intros y I1 I2. sf. apply upd_other. intros ->. apply I2. now left.
    + rewrite E. intros y I1 I2. destruct I2. now right.
Qed.
Lemma q_addTail_ok h L l n : RQ h L -> unlisted L n -> exists h', q_addTail h l n = Some h' /\ RQ h' (set L l (L l ++ [n])).
Proof.
  intros R U. destruct (q_get h L l R) as (Hr & Hl & K & N). unfold q_addTail. rewrite (listed_null h n (rU _ _ _ _ _ R n U)), Hl.
  pose proof (U l) as Ul. destruct (L l) as [|z u] eqn:E using rev_ind.
  - cbn [rev hd_error app]. eexists. split; [reflexivity|]. one h.
    + intros k Nk. sf. now ru.
    + constructor; auto.
    + unfold hdQ. sf. ru. auto.
    + unfold lk. sf. cbn [lnk hd]. ru. auto.
    + intros x [<-|[]]; auto.
    + apply frames; [|reflexivity]. intros x I1 I2. sf. apply upd_other. intros ->. apply I2. now left.
    + rewrite E. intros x [].
  - clear IHu. rewrite rev_unit. cbn [hd_error]. eexists. split; [reflexivity|]. rewrite in_app_iff in Ul. cbn [In] in Ul.
    apply nd_mid in N as (N1 & N2 & N3). rewrite lnk_app in K. destruct K as [K1 K2]. rewrite <- app_assoc. cbn [app]. one h.
    + intros k Nk. sf. now ru.
    + replace (u ++ [z; n]) with ((u ++ [z]) ++ [n]) by now rewrite <- app_assoc. apply nd_join; [|constructor; auto; constructor|].
      * pose proof (rN _ _ _ _ _ R l) as ND. now rewrite E in ND.
      * intros x I [<-|[]]. rewrite in_app_iff in I. cbn [In] in I. tauto.
    + unfold hdQ. sf. ru. split; [|now rewrite rev_app_distr]. rewrite Hr. destruct u; reflexivity.
    + unfold lk. sf. rewrite lnk_app. cbn [lnk hd]. assert (z <> n) by (intros ->; tauto). ru. split; [|auto].
      apply seg_ext with (nxt h); auto. intros x I. rewrite !upd_other; auto; intros ->; tauto.
    + intros x I. rewrite in_app_iff in I. cbn [In] in I. rewrite E, in_app_iff. cbn [In]. destruct I as [I|[I|[<-|[]]]]; auto.
    + apply frames; [|reflexivity]. rewrite E. intros x I1 I2. rewrite in_app_iff in I2. cbn [In] in I2. sf. rewrite !upd_other; auto; intros ->; tauto.
    + rewrite E. intros x I1 I2. destruct I2. rewrite in_app_iff in *. cbn [In] in *. tauto.
Qed.
Lemma rev_cons_last {A} (x y : A) v : hd_error (rev (x :: y :: v)) = hd_error (rev (y :: v)).
Proof. cbn [rev]. destruct (rev v); reflexivity. Qed.
Lemma q_dropHead_ok h L l x v : RQ h L -> L l = x :: v -> exists h', q_dropHead h l = (h', Some x) /\ RQ h' (set L l v) /\ nxt h' x = None.
Proof.
  intros R E. destruct (q_get h L l R) as (Hr & Hl & K & N). rewrite E in *. cbn [hd_error] in Hr.
  destruct (drop_lnk _ _ _ N K) as (D1 & D2 & D3). apply nd_cons in N as [N1 N2].
  unfold q_dropHead. rewrite Hr. sf. ru. rewrite D1. eexists. split; [reflexivity|]. split; [|destruct v; sf; now ru].
  one h.
  - intros k Nk. destruct v; sf; now ru.
  - unfold hdQ. destruct v as [|y v]; sf; ru; auto. rewrite Hl. split; [apply D2; discriminate|apply rev_cons_last].
  - unfold lk. destruct v as [|y v]; sf; auto.
  - intros y I. rewrite E. left. now right.
  - apply frames; [|destruct v; reflexivity]. rewrite E. intros y I1 I2. assert (y <> x) by (intros ->; apply I1; now left). destruct v; sf; now ru.
  - rewrite E. intros y [<-|I] I2; [|contradiction]. unfold null. destruct v; sf; now ru.
Qed.
Lemma q_find_ok h l n v : last h l = hd_error (rev (n :: v)) -> forall u prev k, NoDup (u ++ n :: v) -> seg (nxt h) u n -> length u < k ->
  q_find h l n prev (hd n u) k = Some (match rev u with [] => prev | p :: _ => Some p end).
Proof.
  intros Hl. induction u as [|y u IH]; intros prev k N S Lk; (destruct k as [|k]; [cbn [length] in Lk; lia|]); cbn [q_find hd].
  - now rewrite Nat.eqb_refl.
  - cbn [app] in N. apply nd_cons in N as [N1 N2]. destruct S as [S1 S2]. rewrite in_app_iff in N1. cbn [length] in Lk.
    destruct (Nat.eqb_spec n y) as [->|Ny]; [destruct N1; right; now left|].
    rewrite onb_ne; [|rewrite Hl; intro C; apply N1; right; assert (I : In y (rev (n :: v))) by (destruct (rev (n :: v)); [discriminate|injection C as ->; now left]); now apply in_rev in I].
    rewrite S1, IH; auto; [|lia]. cbn [rev]. destruct (rev u); reflexivity.
Qed.
Lemma q_remove_ok h L l u x v k : RQ h L -> L l = u ++ x :: v -> length (L l) <= k -> exists h', q_remove h l x k = Some h' /\ RQ h' (set L l (u ++ v)).
Proof.
  intros R E Lk. destruct (q_get h L l R) as (Hr & Hl & K & N). rewrite E in *. rewrite app_length in Lk. cbn [length] in Lk. unfold q_remove.
  rewrite (listed_in h u x v K). cbn [negb].
  assert (Rt : root h l = Some (hd x u)) by (rewrite Hr; destruct u; reflexivity). rewrite Rt.
  assert (Hl' : last h l = hd_error (rev (x :: v))). { rewrite Hl, rev_app_distr. destruct (rev (x :: v)) eqn:Q; auto. apply (f_equal (@length nat)) in Q. rewrite rev_length in Q. discriminate. }
  pose proof K as K0. rewrite lnk_app in K. destruct K as [K1 K2]. rewrite (q_find_ok h l x v Hl' u None k N K1) by lia.
  destruct u as [|p u] using rev_ind; [|clear IHu].
  - cbn [hd app]. rewrite Nat.eqb_refl. destruct (q_dropHead_ok h L l x v R E) as (h' & A1 & A2 & A3). rewrite A1. cbn [fst]. exists (setN h' x None). split; auto.
    apply (rep_one lk hdQ null lk_e hdQ_e null_e h' (setN h' x None) _ l v) in A2; try (intros; split; reflexivity).
    + revert A2. apply rep_ext. intro j. unfold set. now destruct (j =? l).
    + cbn [app] in N. now apply nd_cons in N.
    + pose proof (rH _ _ _ _ _ A2 l) as Q. rewrite set_same in Q. exact Q.
    + pose proof (rK _ _ _ _ _ A2 l) as Q. rewrite set_same in Q. apply nd_cons in N as [N1 N2]. unfold lk in *. sf. apply lnk_ext with (nxt h'); auto. intros y I. apply upd_other. intros ->. auto.
    + intros y I. left. rewrite set_same. auto.
    + rewrite set_same. apply frames; [|reflexivity]. intros y I1 I2. sf. destruct (Nat.eq_dec y x) as [->|Ny]; ru; auto.
    + rewrite set_same. intros; contradiction.
  - rewrite rev_unit. assert (Nh : hd x (u ++ [p]) <> x). { apply nd_mid in N as (N1 & _). destruct u as [|y u]; cbn [app hd In] in *; intros ->; apply N1; auto. }
    rewrite (proj2 (Nat.eqb_neq _ _) Nh). rewrite Hl'.
    pose proof N as N0. apply nd_mid in N as (N1 & N2 & N3). rewrite in_app_iff in N1. cbn [In] in N1. assert (Npx : p <> x) by (intros ->; tauto).
    rewrite <- app_assoc in N3. cbn [app] in N3. rewrite <- app_assoc in K0. cbn [app] in K0. rewrite lnk_app in K0. destruct K0 as [K3 K4]. cbn [lnk] in K4.
    apply nd_mid in N3 as (N4 & N5 & N6).
    eexists. split; [reflexivity|]. rewrite <- app_assoc. cbn [app]. destruct v as [|y v].
    + cbn [rev app hd_error onb]. rewrite Nat.eqb_refl. one h.
      * intros j Nj. sf. now ru.
      * apply nd_split in N0 as [N0 _]. auto.
      * unfold hdQ. sf. ru. rewrite rev_unit. split; auto. rewrite Rt. destruct u; reflexivity.
      * unfold lk. sf. rewrite lnk_app. cbn [lnk hd]. ru. split; [|auto]. apply seg_ext with (nxt h); auto. intros y I. rewrite !upd_other; auto; intros ->; tauto.
      * intros y I. left. rewrite E. rewrite !in_app_iff in *. cbn [In] in *. tauto.
      * apply frames; [|reflexivity]. rewrite E. intros y I1 I2. rewrite !in_app_iff in *. cbn [In] in *. sf. rewrite !upd_other; auto; intros ->; tauto.
      * rewrite E. intros y I1 I2. rewrite !in_app_iff in *. cbn [In] in *. assert (x = y) as <- by tauto. unfold null. sf. now ru.
    + assert (Nl : onb (hd_error (rev (x :: y :: v))) (Some x) = false). { rewrite rev_cons_last. apply onb_ne. intro C. apply N2. apply in_rev. destruct (rev (y :: v)); [discriminate|]. injection C as ->. now left. }
      rewrite Nl. destruct K4 as (Kp & Kx & Ky). cbn [hd] in Kp, Kx. one h.
      * replace (u ++ p :: y :: v) with ((u ++ [p]) ++ y :: v) by now rewrite <- app_assoc. now apply NoDup_remove_1 in N0.
      * unfold hdQ. sf. ru. rewrite Rt, Hl', rev_cons_last. split; [destruct u; reflexivity|]. replace (u ++ p :: y :: v) with ((u ++ [p]) ++ y :: v) by now rewrite <- app_assoc. rewrite rev_app_distr. destruct (rev (y :: v)) eqn:Q; auto. apply (f_equal (@length nat)) in Q. rewrite rev_length in Q. discriminate.
      * unfold lk. sf. rewrite lnk_app. cbn [lnk hd In] in *. rewrite Kx. ru. split; [|split; [auto|]].
        -- apply seg_ext with (nxt h); auto. intros z I. rewrite !upd_other; auto; intros ->; tauto.
        -- change (lnk (upd (upd (nxt h) p (Some y)) x None) (y :: v)). apply lnk_ext with (nxt h); [|exact Ky]. intros z I. rewrite !upd_other; auto; intros ->; cbn [In] in *; tauto.
      * intros z I. left. rewrite E. rewrite !in_app_iff in *. cbn [In] in *. tauto.
      * apply frames; [|reflexivity]. rewrite E. intros z I1 I2. rewrite !in_app_iff in *. cbn [In] in *. sf. rewrite !upd_other; auto; intros ->; tauto.
      * rewrite E. intros z I1 I2. rewrite !in_app_iff in *. cbn [In] in *. assert (x = z) as <- by tauto. unfold null. sf. now ru.
Qed.
(** adding a detached list ys *)
Lemma q_append_ok h s xs y w : root h s = hd_error xs -> last h s = hd_error (rev xs) -> lnk (nxt h) xs -> lnk (nxt h) (y :: w) -> NoDup (xs ++ y :: w) ->
  exists h', q_append h s (Some y) (hd_error (rev (y :: w))) = Some h' /\ root h' s = hd_error (xs ++ y :: w) /\ last h' s = hd_error (rev (xs ++ y :: w)) /\ lnk (nxt h') (xs ++ y :: w) /\
  (forall k, k <> s -> root h' k = root h k /\ last h' k = last h k) /\ (forall x, ~ In x xs -> same h h' x).
Proof.
  intros Hr Hl K1 K2 N. unfold q_append. rewrite Hr, Hl.
  assert (LL : hd_error (rev (xs ++ y :: w)) = hd_error (rev (y :: w))). { rewrite rev_app_distr. destruct (rev (y :: w)) eqn:Q; auto. apply (f_equal (@length nat)) in Q. rewrite rev_length in Q. discriminate. }
  rewrite LL. destruct xs as [|z u] using rev_ind; [|clear IHu].
  - cbn [hd_error app]. eexists. split; [reflexivity|]. sf. ru. repeat split; auto; try apply K2; now rewrite upd_other.
  - assert (Hh : hd_error (u ++ [z]) = Some (hd z u)) by (destruct u; reflexivity). rewrite Hh, rev_unit. cbn [hd_error].
    eexists. split; [reflexivity|]. sf. ru. rewrite lnk_app in K1. destruct K1 as [K1 _]. rewrite <- app_assoc in N. cbn [app] in N. apply nd_mid in N as (N1 & N2 & _).
    split; [rewrite Hr; destruct u; reflexivity|]. split; [auto|]. split; [|split].
    + rewrite <- app_assoc. cbn [app]. rewrite lnk_app. split; [|split].
      * apply seg_ext with (nxt h); auto. intros x I. apply upd_other. intros ->. auto.
      * ru. reflexivity.
      * change (lnk (upd (nxt h) z (Some y)) (y :: w)). apply lnk_ext with (nxt h); auto. intros x I. apply upd_other. intros ->. auto.
    + intros k Nk. now ru.
    + intros x I. split; auto. sf. apply upd_other. intros ->. apply I. apply in_app_iff. right. now left.
Qed.
Lemma q_transfer_ok h L s f : RQ h L -> s <> f -> exists h', q_transfer h s f = Some h' /\ RQ h' (set (set L f []) s (L s ++ L f)).
Proof.
  intros R N. destruct (q_get h L s R) as (Hr & Hl & K & ND). destruct (q_get h L f R) as (Hr2 & Hl2 & K2 & ND2). unfold q_transfer, empty. rewrite Hr2, Hl2.
  assert (NJ : NoDup (L s ++ L f)). { apply nd_join; auto. intros x I J. exact (N (rD _ _ _ _ _ R s f x I J)). }
  destruct (L f) as [|y w] eqn:E; cbn [hd_error].
  - exists h. split; auto. rewrite app_nil_r in *. apply (rep_two lk hdQ null lk_e hdQ_e null_e h); auto.
    + split; auto. + split; auto. + rewrite E. tauto. + intros; split; reflexivity.
  - destruct (q_append_ok h s (L s) y w Hr Hl K K2 NJ) as (h' & A1 & A2 & A3 & A4 & A5 & A6). cbn [hd_error] in *. rewrite A1. eexists. split; [reflexivity|].
    apply (rep_two lk hdQ null lk_e hdQ_e null_e h); auto.
    + intros k N1 N2. sf. ru. auto.
    + split; sf; ru; auto.
    + constructor.
    + split; sf; ru; auto.
    + exact I.
    + intro x. rewrite E, in_app_iff. cbn [In]. tauto.
    + intros x I1 _. destruct (A6 x) as [B1 B2]; [rewrite in_app_iff in I1; tauto|]. split; sf; auto.
Qed.
Lemma q_split_ok h L s f u x v : RQ h L -> s <> f -> L f = u ++ x :: v -> exists h', q_split h s f x = Some h' /\ RQ h' (set (set L f v) s (L s ++ u ++ [x])).
Proof.
  intros R N E. destruct (q_get h L s R) as (Hr & Hl & K & ND). destruct (q_get h L f R) as (Hr2 & Hl2 & K2 & ND2). unfold q_split. rewrite E in *. rewrite (listed_in h u x v K2). cbn [negb].
  assert (NJ : NoDup (L s ++ u ++ x :: v)). { apply nd_join; auto. intros y I J. apply N, (rD _ _ _ _ _ R s f y I). now rewrite E. }
  pose proof ND2 as ND3. apply nd_mid in ND3 as (N1 & N2 & N3).
  pose proof K2 as K3. rewrite lnk_app in K3. destruct K3 as [K3 [K4 K5]].
  set (h2 := if onb (Some x) (root (setR h f (nxt h x)) f) then _ else _).
  assert (Hx : onb (Some x) (root (setR h f (nxt h x)) f) = match v with [] => true | _ => false end).
  { sf. ru. rewrite K4. destruct v as [|y v]; [apply onb_refl|]. apply onb_ne. cbn [hd]. intros [= ->]. apply N2. now left. }
  assert (P : root h2 s = hd_error (L s) /\ last h2 s = hd_error (rev (L s)) /\ lnk (nxt h2) (L s) /\ lnk (nxt h2) (u ++ [x]) /\ lnk (nxt h2) v /\ root h2 f = hd_error v /\ last h2 f = hd_error (rev v) /\
    (forall k, k <> s -> k <> f -> root h2 k = root h k /\ last h2 k = last h k) /\ (forall y, y <> x -> same h h2 y)).
  { unfold h2. rewrite Hx. destruct v as [|y v].
    - sf. ru. repeat split; auto; now ru.
    - sf. ru. split; auto. split; auto. split; [|split; [|split; [|split; [|split; [|split]]]]].
      + apply lnk_ext with (nxt h); auto. intros z I. apply upd_other. intros ->. apply N. eapply (rD _ _ _ _ _ R); [exact I|]. rewrite E. apply in_app_iff. right. now left.
      + rewrite lnk_app. cbn [lnk hd]. ru. split; auto. apply seg_ext with (nxt h); auto. intros z I. apply upd_other. intros ->. auto.
      + apply lnk_ext with (nxt h); auto. intros z I. apply upd_other. intros ->. auto.
      + rewrite K4. reflexivity.
      + rewrite Hl2, rev_app_distr. rewrite <- (rev_cons_last x y v). destruct (rev (x :: y :: v)) eqn:Q; auto. apply (f_equal (@length nat)) in Q. rewrite rev_length in Q. discriminate.
      + intros k N4 N5. now ru.
      + intros z I. split; auto. sf. now ru. }
  destruct P as (P1 & P2 & P3 & P4 & P5 & P6 & P7 & P8 & P9).
  assert (Hh : exists a w, u ++ [x] = a :: w /\ root h f = Some a). { destruct u as [|a u]; [exists x, []|exists a, (u ++ [x])]; auto. } destruct Hh as (a & w & Q1 & Q2). rewrite Q2.
  assert (NJ2 : NoDup (L s ++ a :: w)). { rewrite <- Q1. replace (L s ++ u ++ x :: v) with ((L s ++ u ++ [x]) ++ v) in NJ by (rewrite <- !app_assoc; reflexivity). now apply nd_split in NJ. }
  rewrite Q1 in P4. destruct (q_append_ok h2 s (L s) a w P1 P2 P3 P4 NJ2) as (h' & A1 & A2 & A3 & A4 & A5 & A6).
  replace (hd_error (rev (a :: w))) with (Some x) in A1 by (rewrite <- Q1, rev_unit; reflexivity). rewrite A1. exists h'. split; auto. rewrite Q1 in *.
  assert (DI : forall z, In z v -> ~ In z (L s) /\ ~ In z (a :: w)).
  { intros z I. rewrite <- Q1. replace (L s ++ u ++ x :: v) with ((L s ++ u ++ [x]) ++ v) in NJ by (rewrite <- !app_assoc; reflexivity). apply nd_split in NJ as (_ & _ & D). split; intro J; exact (D z ltac:(apply in_app_iff; auto) I). }
  apply (rep_two lk hdQ null lk_e hdQ_e null_e h); auto.
  - intros k N4 N5. destruct (A5 k N4) as [-> ->]. auto.
  - split; auto.
  - apply nd_split in N3. tauto.
  - destruct (A5 f ltac:(auto)) as [B1 B2]. split; congruence.
  - apply lnk_ext with (nxt h2); auto. intros z I. apply A6. apply DI, I.
  - intro z. rewrite E, in_app_iff, <- Q1, !in_app_iff. cbn [In]. tauto.
  - intros z I J. apply in_app_iff in I. destruct (DI z J). tauto.
  - intros z I J. rewrite in_app_iff in I. assert (z <> x). { intros ->. apply I. right. rewrite <- Q1. apply in_app_iff. right. now left. }
    destruct (A6 z) as [B1 B2]; [tauto|]. destruct (P9 z H) as [B3 B4]. split; congruence.
Qed.
Lemma sim_queue k h L o L' r : RQ h L -> spec L o L' r -> queue_op o = true -> big L o k -> exists h', exec_queue k h o = Some (h', r) /\ RQ h' L'.
Proof.
  intros R Sp So B. destruct Sp; cbn [queue_op] in So; try discriminate; cbn [exec_queue big] in *.
  - destruct (q_addHead_ok h L l n R) as (h' & A1 & A2); auto. rewrite A1. exists h'; auto.
  - destruct (q_addTail_ok h L l n R) as (h' & A1 & A2); auto. rewrite A1. exists h'; auto.
  - destruct (q_dropHead_ok h L l x v R) as (h' & A1 & A2 & _); auto. rewrite A1. exists h'; auto.
  - exists h. destruct (q_get h L l R) as (Hr & Hl & _). unfold q_dropHead. rewrite Hr, H. auto.
  - destruct (q_get h L l R) as (Hr & Hl & _). unfold q_dropTail. rewrite Hl, H, rev_unit. cbn [hd_error]. destruct (q_remove_ok h L l u x [] k R) as (h' & A1 & A2); auto. rewrite A1. rewrite app_nil_r in A2. exists h'; auto.
  - exists h. destruct (q_get h L l R) as (Hr & Hl & _). unfold q_dropTail. rewrite Hl, H. auto.
  - destruct (q_remove_ok h L l u x v k R) as (h' & A1 & A2); auto. rewrite A1. exists h'; auto.
  - destruct (q_transfer_ok h L s f R) as (h' & A1 & A2); auto. rewrite A1. exists h'; auto.
  - destruct (q_split_ok h L s f u x v R) as (h' & A1 & A2); auto. rewrite A1. exists h'; auto.
  - exists h. destruct (q_get h L l R) as (Hr & Hl & _). rewrite Hr. auto.
  - exists h. destruct (q_get h L l R) as (Hr & Hl & _). rewrite Hl. auto.
  - exists h. destruct (q_get h L l R) as (Hr & Hl & _). unfold empty. rewrite Hr. split; auto. now destruct (L l).
  - exists h. apply in_split in H as (u & v & E). pose proof (rK _ _ _ _ _ R l) as K. rewrite E in K. rewrite (listed_in h u n v K). auto.
  - exists h. rewrite (listed_null h n (rU _ _ _ _ _ R n H)). auto.
  - exists h. destruct (q_get h L l R) as (_ & _ & K & N). rewrite H in *. apply lnk_in in K. unfold q_succ. rewrite K. apply nd_mid in N as (_ & N & _).
    split; auto. cbn [rs]. destruct v as [|y v]; cbn [hd hd_error]; [now rewrite Nat.eqb_refl|]. destruct (Nat.eqb_spec y x) as [->|]; auto. destruct N. now left.
  - exists h. destruct (q_get h L l R) as (Hr & _ & K & N). rewrite Hr, s_iter_ok; auto.
Qed.
