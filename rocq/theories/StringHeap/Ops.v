From Coq Require Import ZArith List Bool Lia ZifyBool.
From Verif.StringHeap Require Import Model Spec Proofs.
Import ListNotations.
Open Scope Z_scope.

Definition nvalues := name -> option (list Z).
Definition nupd (v : nvalues) (w : name) (t : option (list Z)) : nvalues := fun y => if eqn y w then t else v y.
Definition shows (v : nvalues) (m : Z -> Z) (k : handle) : Prop := v (who k) = Some (read m (adr k) (len k)).
Record Rep (h : heap) (v : nvalues) : Prop := {
  r_bounds : bounds h; r_nodup : NoDup (names (hs h)); r_in : Forall (inside (start h) (fin h)) (hs h);
  r_text : Forall (shows v (mem h)) (hs h); r_dom : forall w, v w <> None -> In w (names (hs h)) }.
Definition Inv (W : handle -> handle -> Prop) (h : heap) (v : nvalues) : Prop := Rep h v /\ tidy W (fin h) (start h) (hs h).

Lemma nupd_same : forall v w t, nupd v w t w = t.
Proof. intros. unfold nupd. rewrite eqn_refl. auto. Qed.
Lemma nupd_other : forall v w t y, y <> w -> nupd v w t y = v y.
Proof. intros. unfold nupd. destruct (eqn_spec y w); congruence. Qed.
Lemma find_some : forall w l k, find w l = Some k -> In k l /\ who k = w.
Proof. intros w l k E. apply find_some in E. destruct E as [A B]. split; auto. destruct (eqn_spec (who k) w); congruence. Qed.
Lemma find_in : forall l k, NoDup (names l) -> In k l -> find (who k) l = Some k.
Proof.
  induction l as [|x l IH]; intros k N I; [destruct I|]. unfold find. cbn [List.find]. inversion N; subst.
  destruct (eqn_spec (who x) (who k)) as [E|E].
  - destruct I as [->|I]; auto. exfalso. apply H1. rewrite E. apply in_map. auto.
  - destruct I as [->|I]; [congruence|]. apply (IH k); auto.
Qed.
Lemma find_none : forall l w, ~ In w (names l) -> find w l = None.
Proof.
  induction l as [|x l IH]; intros w N; auto. unfold find. cbn [List.find names map In] in *. destruct (eqn_spec (who x) w); [tauto|].
  apply IH. tauto.
Qed.
Lemma find_name : forall l w, In w (names l) -> exists k, find w l = Some k.
Proof.
  intros l w I. destruct (find w l) eqn:E; [eauto|]. exfalso. unfold names in I. apply in_map_iff in I. destruct I as (k & <- & I).
  unfold find in E. apply (List.find_none _ _ E) in I. cbn beta in I. rewrite eqn_refl in I. discriminate.
Qed.
Lemma rep_get : forall h v w t, Rep h v -> v w = Some t -> exists k, get w h = Ok k /\ find w (hs h) = Some k /\ In k (hs h) /\ who k = w /\
  t = read (mem h) (adr k) (len k) /\ inside (start h) (fin h) k.
Proof.
  intros h v w t R V. destruct (find_name (hs h) w) as [k E]; [apply (r_dom _ _ R); congruence|].
  destruct (find_some _ _ _ E) as [I <-]. exists k. unfold get. rewrite E. split; auto. split; auto. split; auto. split; auto. split.
  - pose proof (proj1 (Forall_forall _ _) (r_text _ _ R) k I) as S. unfold shows in S. congruence.
  - apply (proj1 (Forall_forall _ _) (r_in _ _ R) k I).
Qed.
Lemma rep_none : forall h v w, Rep h v -> v w = None -> ~ In w (names (hs h)).
Proof.
  intros h v w R V I. unfold names in I. apply in_map_iff in I. destruct I as (k & <- & I).
  pose proof (proj1 (Forall_forall _ _) (r_text _ _ R) k I) as S. unfold shows in S. congruence.
Qed.
Lemma kept_names : forall m m' hi hi' l l', Forall2 (kept m m' hi hi') l l' -> names l' = names l.
Proof. intros m m' hi hi' l l' K. induction K as [|k k' l l' K L IH]; cbn [names map]; auto. destruct K as [-> _]. f_equal. exact IH. Qed.
Lemma kept_shows : forall v m m' hi hi' l l', Forall2 (kept m m' hi hi') l l' -> Forall (shows v m) l -> Forall (shows v m') l'.
Proof.
  intros v m m' hi hi' l l' K. induction K as [|k k' l l' K L IH]; intros F; constructor; inversion F; subst; auto.
  unfold shows in *. destruct K as (-> & _ & -> & _). auto.
Qed.
Lemma kept_find : forall m m' hi hi' l l' w k, Forall2 (kept m m' hi hi') l l' -> find w l = Some k -> exists k', find w l' = Some k' /\ kept m m' hi hi' k k'.
Proof.
  intros m m' hi hi' l l' w k K. induction K as [|x x' l l' X K IH]; intros E; [discriminate|]. unfold find in *. cbn [List.find] in *.
  rewrite (proj1 X). destruct (eqn (who x) w); auto. injection E as <-. eauto.
Qed.
Lemma set_other : forall w a n l, ~ In w (names l) -> set w a n l = l.
Proof.
  induction l as [|x l IH]; intros N; auto. cbn [set map names In] in *. destruct (eqn_spec (who x) w); [tauto|].
  f_equal. apply IH. tauto.
Qed.
Lemma set_snoc : forall w a n l z, ~ In w (names l) -> who z = w -> set w a n (l ++ [z]) = l ++ [H w a n].
Proof. intros w a n l z N E. unfold set. rewrite map_app. fold (set w a n l). rewrite set_other by auto. cbn [map]. rewrite E, eqn_refl. auto. Qed.
Lemma set_names : forall w a n l, names (set w a n l) = names l.
Proof. intros. unfold names, set. rewrite map_map. apply map_ext. intros k. destruct (eqn_spec (who k) w); auto. Qed.
Lemma tidy_snoc : forall W hi hi' lo l k, tidy W hi lo l -> hi <= adr k -> 0 <= len k -> adr k + len k <= hi' -> tidy W hi' lo (l ++ [k]).
Proof.
  intros W hi hi' lo l k T A B C. induction T as [lo L|lo h a b L N F T IH].
  - cbn [app]. change [k] with (k :: [] ++ []). apply tidy_blk; auto; [lia|]. constructor. auto.
  - rewrite <- app_comm_cons, <- app_assoc. apply tidy_blk; auto.
Qed.
(** storing bytes beyond every string *)
Lemma store_ok : forall h v a l, Rep h v -> Forall (fun k => adr k + len k <= a) (hs h) -> start h <= a -> a + Z.of_nat (length l) <= ext h ->
  exists h1, store h a l = Ok h1 /\ Rep h1 v /\ h1 = Heap (start h) (fin h) (ext h) (init h) (curr h) (write (mem h) a l) (hs h).
Proof.
  intros h v a l R F S E. unfold store. rewrite ok_in by lia. eexists. split; [reflexivity|]. split; auto. destruct R as [B N I T D].
  constructor; cbn [start fin ext init curr mem hs]; auto; [destruct B; constructor; auto|].
  clear -F T. induction T as [|k t K T IH]; constructor; inversion F; subst; auto. unfold shows in *. rewrite K. f_equal. apply read_ext.
  intros x X. symmetry. apply write_out. lia.
Qed.
Section S.
Variables (low : Z -> Z -> bool) (place : heap -> Z -> option Z).
Hypothesis G : good place.
Lemma names_app : forall a b, names (a ++ b) = names a ++ names b.
Proof. intros. apply map_app. Qed.
Lemma alloc_inv : forall W h v size, fine W -> Inv W h v -> 0 <= size -> alloc low place h size = NoMem \/
  exists h1 a, alloc low place h size = Ok (h1, a) /\ Rep h1 v /\ tidy W a (start h1) (hs h1) /\ Forall (inside (start h1) a) (hs h1) /\ fin h1 = a + size /\
    (forall w k, find w (hs h) = Some k -> exists k', find w (hs h1) = Some k' /\ kept (mem h) (mem h1) (fin h) a k k').
Proof.
  intros W h v size F [R T] N. destruct (alloc_ok low place G W h (hs h) [] size F (r_bounds _ _ R)) as [E|(h1 & a & l1 & t1 & E & B & L & _ & TN & FE & SA & TI & K)]; auto.
  - symmetry. apply app_nil_r.
  - left. auto.
  - right. exists h1, a. destruct t1; [|discriminate TN]. rewrite app_nil_r in L. subst l1. pose proof (tidy_inside _ _ _ _ F TI) as TS.
    split; auto. split; [|split; [auto|split; [auto|split; [auto|]]]].
    + destruct R. constructor; auto.
      * rewrite (kept_names _ _ _ _ _ _ K). auto.
      * eapply Forall_impl; [|exact TS]. unfold inside. intros; lia.
      * eapply kept_shows; eauto.
      * rewrite (kept_names _ _ _ _ _ _ K). auto.
    + intros w k. apply kept_find. auto.
Qed.
Lemma construct_ok : forall W h v w l, fine W -> Inv W h v -> v w = None -> construct low place h w l = NoMem \/
  exists h1, construct low place h w l = Ok h1 /\ Inv W h1 (nupd v w (Some l)) /\
    exists k p, hs h1 = p ++ [k] /\ who k = w /\ adr k + len k = fin h1 /\ len k = Z.of_nat (length l).
Proof.
  intros W h v w l F [R T] V. unfold construct. pose proof (rep_none _ _ _ R V) as NI.
  assert (BH : bounds (with_hs h (hs h ++ [H w 0 0]))) by (destruct (r_bounds _ _ R); constructor; auto).
  assert (ZT : zeros [H w 0 0]) by (right; eexists; eauto).
  destruct (alloc_ok low place G W (with_hs h (hs h ++ [H w 0 0])) (hs h) [H w 0 0] (Z.of_nat (length l)) F BH eq_refl ZT) as [E|(h1 & a & l1 & t1 & E & B & L & ZT1 & TN & FE & SA & TI & K)]; auto; [lia| |].
  - left. rewrite E. reflexivity.
  - right. rewrite E. cbn [bind]. cbn [with_hs fin start mem hs] in *.
    assert (exists z, t1 = [z] /\ who z = w) as (z & -> & WZ).
    { destruct t1 as [|z [|? ?]]; cbn [names map who] in TN; try discriminate. exists z. split; auto. congruence. }
    pose proof (kept_names _ _ _ _ _ _ K) as KN. pose proof (tidy_inside _ _ _ _ F TI) as TS.
    assert (NI1 : ~ In w (names l1)) by (rewrite KN; auto).
    rewrite L, set_snoc by auto. set (k := H w a (Z.of_nat (length l))).
    unfold store. cbn [with_hs start ext fin init curr mem hs]. rewrite ok_in by (destruct B; lia). eexists. split; [reflexivity|]. split.
    + split.
      * constructor; cbn [start ext fin init curr mem hs].
        -- destruct B. constructor; auto.
        -- rewrite names_app. cbn [names map k who]. rewrite KN. apply NoDup_Add with (a := w) (l := names (hs h)); [|split; [apply (r_nodup _ _ R)|auto]].
           rewrite <- (app_nil_r (names (hs h))) at 1. apply Add_app.
        -- apply Forall_app. split.
           ++ eapply Forall_impl; [|exact TS]. unfold inside. intros; lia.
           ++ constructor; auto. unfold inside. cbn [k adr len]. lia.
        -- apply Forall_app. split.
           ++ assert (FS := kept_shows v _ _ _ _ _ _ K (r_text _ _ R)). clear -FS NI1 TS.
              induction FS as [|x l1 X FS IH]; constructor.
              ** cbn [names map In] in NI1. unfold shows in *. rewrite nupd_other by tauto. rewrite X. f_equal. apply read_ext.
                 intros y Y. symmetry. apply write_out. inversion TS; subst. unfold inside in *. lia.
              ** apply IH; [inversion TS; auto|cbn [names map In] in NI1; tauto].
           ++ constructor; auto. unfold shows. cbn [k who adr len]. rewrite nupd_same, read_write. auto.
        -- intros y Y. rewrite names_app. apply in_or_app. destruct (eqn_spec y w) as [->|]; [right; left; auto|].
           rewrite nupd_other in Y by auto. left. rewrite KN. apply (r_dom _ _ R). auto.
      * cbn [start fin hs]. rewrite FE. apply tidy_snoc with a; auto; cbn [k adr len]; lia.
    + exists k, l1. cbn [hs fin k who adr len]. auto.
Qed.
End S.
