From Coq Require Import ZArith List Bool Lia ZifyBool Permutation.
From Verif.StringHeap Require Import Model Spec Proofs Ops.
Import ListNotations.
Open Scope Z_scope.

Lemma rep_ext : forall h v v', (forall w, v w = v' w) -> Rep h v -> Rep h v'.
Proof.
  intros h v v' E [B N I T D]. constructor; auto.
  - eapply Forall_impl; [|exact T]. unfold shows. intros k K. rewrite <- E. auto.
  - intros w. rewrite <- E. auto.
Qed.
Lemma rep_perm : forall h v l, Permutation (hs h) l -> Rep h v -> Rep (with_hs h l) v.
Proof.
  intros h v l P [B N I T D]. constructor; cbn [with_hs start fin ext mem hs].
  - destruct B. constructor; auto.
  - eapply Permutation_NoDup; [|exact N]. apply Permutation_map. auto.
  - rewrite Forall_forall in *. intros k K. apply I. eapply Permutation_in; [apply Permutation_sym; exact P|auto].
  - rewrite Forall_forall in *. intros k K. apply T. eapply Permutation_in; [apply Permutation_sym; exact P|auto].
  - intros w V. eapply Permutation_in; [apply Permutation_map; exact P|]. apply D. auto.
Qed.
Lemma remove_in : forall w l k, In k (remove w l) <-> In k l /\ who k <> w.
Proof. intros. unfold remove. rewrite filter_In. destruct (eqn_spec (who k) w); cbn [negb]; intuition congruence. Qed.
Lemma remove_names : forall w l, ~ In w (names (remove w l)).
Proof. intros w l I. unfold names in I. apply in_map_iff in I. destruct I as (k & <- & I). apply remove_in in I. tauto. Qed.
Lemma remove_other : forall w l, ~ In w (names l) -> remove w l = l.
Proof.
  induction l as [|x l IH]; intros N; auto. cbn [remove filter names map In] in *. destruct (eqn_spec (who x) w); [tauto|]. cbn [negb].
  f_equal. apply IH. tauto.
Qed.
Lemma remove_nodup : forall w l, NoDup (names l) -> NoDup (names (remove w l)).
Proof.
  induction l as [|x l IH]; intros N; auto. cbn [remove filter names map] in *. inversion N; subst. destruct (negb (eqn (who x) w)); auto.
  cbn [map]. constructor; auto. intros I. apply H1. apply in_map_iff in I. destruct I as (k & E & I). apply remove_in in I. rewrite <- E. apply in_map. tauto.
Qed.
Lemma remove_app : forall w a b, remove w (a ++ b) = remove w a ++ remove w b.
Proof. intros. apply filter_app. Qed.
Lemma remove_perm : forall w l k, NoDup (names l) -> In k l -> who k = w -> Permutation l (k :: remove w l).
Proof.
  induction l as [|x l IH]; intros k N I E; [destruct I|]. cbn [names map] in N. inversion N; subst. cbn [remove filter].
  destruct (eqn_spec (who x) (who k)) as [Q|Q]; cbn [negb].
  - destruct I as [->|I]; [|exfalso; apply H1; rewrite Q; apply in_map; auto]. fold (remove (who k) l). rewrite remove_other by auto. auto.
  - destruct I as [->|I]; [congruence|]. fold (remove (who k) l). apply perm_trans with (x :: k :: remove (who k) l); [|apply perm_swap]. constructor. apply IH; auto.
Qed.
Lemma set_remove : forall w a n l, remove w (set w a n l) = remove w l.
Proof.
  induction l as [|x l IH]; auto. cbn [set map remove filter]. destruct (eqn_spec (who x) w) as [Q|Q]; cbn [who].
  - rewrite eqn_refl. cbn [negb]. exact IH.
  - destruct (eqn_spec (who x) w); [congruence|]. cbn [negb]. f_equal. exact IH.
Qed.
Lemma set_in : forall w a n l, In w (names l) -> In (H w a n) (set w a n l).
Proof. intros w a n l I. unfold names in I. apply in_map_iff in I. destruct I as (k & E & I). unfold set. apply in_map_iff. exists k. rewrite E, eqn_refl. auto. Qed.
Lemma set_perm : forall w a n l, NoDup (names l) -> In w (names l) -> Permutation (set w a n l) (H w a n :: remove w l).
Proof.
  intros w a n l N I. rewrite <- (set_remove w a n l). apply remove_perm; auto. - rewrite set_names. auto. - apply set_in. auto.
Qed.
Lemma add_after_perm : forall k w l, In w (names l) -> Permutation (k :: l) (add_after k w l).
Proof.
  induction l as [|x l IH]; intros I; [destruct I|]. cbn [add_after names map In] in *. destruct (eqn_spec (who x) w) as [Q|Q].
  - apply perm_swap.
  - apply perm_trans with (x :: k :: l); [apply perm_swap|]. constructor. apply IH. tauto.
Qed.
Lemma add_before_perm : forall k w l, In w (names l) -> Permutation (k :: l) (add_before k w l).
Proof.
  induction l as [|x l IH]; intros I; [destruct I|]. cbn [add_before names map In] in *. destruct (eqn_spec (who x) w) as [Q|Q].
  - apply Permutation_refl.
  - apply perm_trans with (x :: k :: l); [apply perm_swap|]. constructor. apply IH. tauto.
Qed.
Lemma after_in : forall w l k, In k (after w l) -> In k l.
Proof. induction l as [|x l IH]; intros k I; [destruct I|]. cbn [after] in I. destruct (eqn (who x) w); [right; auto|right; apply IH; auto]. Qed.
Lemma stop_in : forall a l i, stop_at a l = Some i -> In i (names l).
Proof. induction l as [|x l IH]; intros i E; [discriminate|]. cbn [stop_at] in E. cbn [names map In]. destruct (adr x <? a); [right; apply IH; auto|left; congruence]. Qed.
Lemma move_perm : forall s h l, NoDup (names l) -> In s l -> Permutation l (move_after s h l).
Proof.
  intros s h l N I. unfold move_after. pose proof (remove_perm (who s) l s N I eq_refl) as P.
  destruct (stop_at (adr s) (after h l)) as [i|] eqn:E.
  - destruct (eqn_spec i (who s)) as [Q|Q]; auto. apply perm_trans with (s :: remove (who s) l); auto. apply add_before_perm.
    apply stop_in in E. unfold names in *. apply in_map_iff in E. destruct E as (k & <- & E). apply in_map. apply remove_in. split; auto. apply after_in with h; auto.
  - apply perm_trans with (s :: remove (who s) l); auto. apply Permutation_cons_append.
Qed.
Lemma rep_remove : forall h v w, Rep h v -> Rep (with_hs h (remove w (hs h))) (nupd v w None).
Proof.
  intros h v w [B N I T D]. constructor; cbn [with_hs start fin ext mem hs].
  - destruct B. constructor; auto.
  - apply remove_nodup; auto.
  - rewrite Forall_forall in *. intros k K. apply I. apply remove_in in K. tauto.
  - rewrite Forall_forall in *. intros k K. apply remove_in in K. unfold shows. rewrite nupd_other by tauto. apply T. tauto.
  - intros y Y. destruct (eqn_spec y w) as [->|Q]; [rewrite nupd_same in Y; congruence|]. rewrite nupd_other in Y by auto.
    apply D in Y. unfold names in *. apply in_map_iff in Y. destruct Y as (k & <- & K). apply in_map. apply remove_in. auto.
Qed.
Lemma rep_cons : forall h v k, Rep h v -> ~ In (who k) (names (hs h)) -> inside (start h) (fin h) k ->
  Rep (with_hs h (k :: hs h)) (nupd v (who k) (Some (read (mem h) (adr k) (len k)))).
Proof.
  intros h v k [B N I T D] NI IK. constructor; cbn [with_hs start fin ext mem hs].
  - destruct B. constructor; auto.
  - cbn [names map]. constructor; auto.
  - constructor; auto.
  - constructor; [unfold shows; apply nupd_same|]. rewrite Forall_forall in *. intros x X. unfold shows. rewrite nupd_other; [apply T; auto|].
    intros E. apply NI. rewrite <- E. apply in_map. auto.
  - intros y Y. cbn [names map In]. destruct (eqn_spec y (who k)) as [->|Q]; auto. rewrite nupd_other in Y by auto. right. apply D. auto.
Qed.
(** changing the range of one string *)
Lemma rep_set : forall h v w a n, Rep h v -> In w (names (hs h)) -> inside (start h) (fin h) (H w a n) ->
  Rep (with_hs h (set w a n (hs h))) (nupd v w (Some (read (mem h) a n))).
Proof.
  intros h v w a n R I IK. pose proof (rep_remove h v w R) as R1.
  pose proof (rep_cons _ _ (H w a n) R1) as R2. cbn [with_hs who adr len hs start fin mem] in R2.
  specialize (R2 (remove_names w (hs h)) IK).
  apply rep_ext with (nupd (nupd v w None) w (Some (read (mem h) a n))).
  - intros y. unfold nupd. destruct (eqn y w); auto.
  - refine (rep_perm _ _ (set w a n (hs h)) _ R2). apply Permutation_sym. apply set_perm; auto. apply (r_nodup _ _ R).
Qed.

Lemma tidy_add_after : forall W hi lo l w x k, fine W -> tidy W hi lo l -> find w l = Some x -> (forall g, W g x -> W g k) ->
  W x k \/ (len x = 0 /\ adr k = adr x /\ len k = 0) -> tidy W hi lo (add_after k w l).
Proof.
  intros W hi lo l w x k F T. revert x. induction T as [lo L|lo h a b L N A T IH]; intros x E WK XK; [discriminate|].
  unfold find in E. cbn [List.find] in E. cbn [add_after]. destruct (eqn (who h) w).
  - injection E as <-. destruct XK as [XK|(X1 & X2 & X3)].
    + rewrite app_comm_cons. apply tidy_blk; auto.
    + assert (a = []) as -> by (destruct A as [|g a GA]; auto; apply F in GA; unfold within in GA; lia). cbn [app].
      change (h :: k :: b) with (h :: [] ++ (k :: [] ++ b)). apply tidy_blk; auto. apply tidy_blk; auto; try lia.
      replace (adr k + len k) with (adr h + len h) by lia. auto.
  - assert (X : add_after k w (a ++ b) = match find w a with Some _ => add_after k w a ++ b | None => a ++ add_after k w b end).
    { clear. induction a as [|g a IH]; cbn [app]; auto. unfold find. cbn [List.find add_after]. destruct (eqn (who g) w); auto.
      rewrite IH. unfold find. destruct (List.find (fun h => eqn (who h) w) a); auto. }
    rewrite X. clear X. fold (find w (a ++ b)) in E.
    assert (Y : find w (a ++ b) = match find w a with Some z => Some z | None => find w b end).
    { clear. induction a as [|g a IH]; cbn [app]; auto. unfold find in *. cbn [List.find]. destruct (eqn (who g) w); auto. }
    rewrite Y in E. clear Y. destruct (find w a) as [z|] eqn:FA.
    + injection E as ->. apply tidy_blk; auto. apply find_some in FA. destruct FA as [I <-].
      pose proof (proj1 (Forall_forall _ _) A x I) as WX. apply WK in WX. clear -A WX. induction A as [|g a GA A IH]; cbn [add_after]; auto.
      destruct (eqn (who g) (who x)); auto.
    + apply tidy_blk; auto. apply (IH x); auto.
Qed.
Lemma tidy_same_remove : forall hi lo l w, tidy same hi lo l -> tidy same hi lo (remove w l).
Proof.
  intros hi lo l w T. induction T as [lo L|lo h a b L N A T IH]; [constructor; auto|]. cbn [remove filter].
  fold (remove w (a ++ b)). rewrite remove_app. assert (FA : Forall (same h) (remove w a)).
  { rewrite Forall_forall in *. intros k K. apply remove_in in K. apply A. tauto. }
  destruct (negb (eqn (who h) w)); [apply tidy_blk; auto|]. destruct FA as [|k a' K FA].
  - cbn [app]. apply tidy_low with (adr h + len h); auto. lia.
  - cbn [app]. unfold same in K. apply tidy_blk; try lia.
    + eapply Forall_impl; [|exact FA]. unfold same. intros; lia.
    + replace (adr k + len k) with (adr h + len h) by lia. auto.
Qed.
Lemma tidy_unsnoc : forall W hi lo p k, fine W -> tidy W hi lo (p ++ [k]) -> len k = 0 -> adr k = hi -> tidy W hi lo p.
Proof.
  intros W hi lo p k F T Z E. remember (p ++ [k]) as l eqn:Q. revert p Q. induction T as [lo L|lo h a b L N A T IH]; intros p Q.
  - destruct p; discriminate.
  - pose proof (tidy_le _ _ _ _ T) as LE. destruct p as [|x p]; cbn [app] in Q; injection Q as -> Q.
    + constructor. lia.
    + destruct b as [|y b] using rev_ind.
      * rewrite app_nil_r in Q. subst a. apply Forall_app in A. destruct A as [_ A]. apply Forall_inv in A. apply F in A. unfold within in A. lia.
      * rewrite app_assoc in Q. apply app_inj_tail in Q. destruct Q as [<- ->]. apply tidy_blk; auto.
Qed.

Section S.
Variables (low : Z -> Z -> bool) (place : heap -> Z -> option Z).
Hypothesis G : good place.
Lemma copy_rep : forall h v w y t i n, Rep h v -> v w = None -> v y = Some t -> (i + n <= length t)%nat ->
  exists h1 x, copy h w y (Z.of_nat i) (Z.of_nat n) = Ok h1 /\ Rep h1 (nupd v w (Some (firstn n (skipn i t)))) /\
    find y (hs h) = Some x /\ len x = Z.of_nat (length t) /\
    h1 = with_hs h (add_after (H w (adr x + Z.of_nat i) (Z.of_nat n)) y (hs h)).
Proof.
  intros h v w y t i n R V Y L. destruct (rep_get _ _ _ _ R Y) as (x & E & FX & I & Q & TX & IN). unfold copy. rewrite E. cbn [bind].
  assert (LX : len x = Z.of_nat (length t)) by (rewrite TX, read_length; unfold inside in IN; lia).
  do 2 eexists. split; [reflexivity|]. split; [|split; eauto].
  set (k := H w (adr x + Z.of_nat i) (Z.of_nat n)).
  pose proof (rep_cons h v k R (rep_none _ _ _ R V)) as R1. cbn [k who adr len] in R1.
  assert (S : read (mem h) (adr x + Z.of_nat i) (Z.of_nat n) = firstn n (skipn i t)).
  { rewrite (read_sub _ _ (len x)) by lia. rewrite <- TX, !Nat2Z.id. auto. }
  rewrite S in R1. refine (rep_perm _ _ (add_after k y (hs h)) _ (R1 _)).
  - apply add_after_perm. rewrite <- Q. apply in_map. auto.
  - subst k. unfold inside in *. cbn [adr len]. lia.
Qed.
Lemma copy_tidy : forall h v w y t i n h1, Inv within h v -> v y = Some t -> (i + n <= length t)%nat -> (i < length t)%nat \/ t = [] ->
  copy h w y (Z.of_nat i) (Z.of_nat n) = Ok h1 -> tidy within (fin h1) (start h1) (hs h1).
Proof.
  intros h v w y t i n h1 [R T] Y L C E. destruct (rep_get _ _ _ _ R Y) as (x & E2 & FX & I & Q & TX & IN). unfold copy in E. rewrite E2 in E. cbn [bind] in E.
  injection E as <-. cbn [with_hs fin start hs].
  assert (LX : len x = Z.of_nat (length t)) by (rewrite TX, read_length; unfold inside in IN; lia).
  destruct C as [C| ->].
  - apply tidy_add_after with x; auto; [apply within_fine| |].
    + unfold within. cbn [adr len]. intros g; lia.
    + left. unfold within. cbn [adr len]. lia.
  - cbn [length] in *. apply tidy_add_after with x; auto; [apply within_fine| |].
    + unfold within. cbn [adr len]. intros g; lia.
    + right. cbn [adr len]. lia.
Qed.
Lemma copy_same : forall h v w y t h1, Inv same h v -> v y = Some t ->
  copy h w y 0 (Z.of_nat (length t)) = Ok h1 -> tidy same (fin h1) (start h1) (hs h1).
Proof.
  intros h v w y t h1 [R T] Y E. destruct (rep_get _ _ _ _ R Y) as (x & E2 & FX & I & Q & TX & IN). unfold copy in E. rewrite E2 in E. cbn [bind] in E.
  injection E as <-. cbn [with_hs fin start hs].
  assert (LX : len x = Z.of_nat (length t)) by (rewrite TX, read_length; unfold inside in IN; lia).
  apply tidy_add_after with x; auto; [apply same_fine| |].
  - unfold same. cbn [adr len]. intros g; lia.
  - unfold same. cbn [adr len]. lia.
Qed.
Lemma destroy_rep : forall h v w t, Rep h v -> v w = Some t -> destroy h w = Ok (with_hs h (remove w (hs h))) /\ Rep (with_hs h (remove w (hs h))) (nupd v w None).
Proof.
  intros h v w t R V. destruct (rep_get _ _ _ _ R V) as (x & E & _). unfold destroy. rewrite E. split; auto. apply rep_remove. auto.
Qed.
Lemma assign_string_rep : forall h v w y t u, Rep h v -> v w = Some u -> v y = Some t -> exists h1 x, assign_string h w y = Ok h1 /\ find y (hs h) = Some x /\
  h1 = with_hs h (move_after (H w (adr x) (len x)) y (set w (adr x) (len x) (hs h))) /\ Rep h1 (nupd v w (Some t)).
Proof.
  intros h v w y t u R V Y. destruct (rep_get _ _ _ _ R Y) as (x & E & FX & I & Q & TX & IN). destruct (rep_get _ _ _ _ R V) as (xw & Ew & _ & Iw & Qw & _ & _).
  unfold assign_string. rewrite E. cbn [bind]. rewrite Ew. cbn [bind]. do 2 eexists. split; [reflexivity|]. split; [eauto|]. split; auto.
  assert (NW : In w (names (hs h))) by (rewrite <- Qw; apply in_map; auto).
  pose proof (rep_set h v w (adr x) (len x) R NW) as R1. rewrite <- TX in R1.
  refine (rep_perm _ _ _ _ (R1 _)); [|unfold inside in *; cbn [adr len]; auto].
  cbn [with_hs hs]. apply move_perm; [rewrite set_names; apply (r_nodup _ _ R)|apply set_in; auto].
Qed.

Lemma tidy_head : forall W hi lo l k, fine W -> tidy W hi lo l -> In k l -> lo <= adr k.
Proof. intros W hi lo l k F T I. pose proof (proj1 (Forall_forall _ _) (tidy_inside _ _ _ _ F T) k I) as K. unfold inside in K. lia. Qed.
(** in a list of groups of equal handles, the handles after x start no earlier than x *)
Lemma after_same : forall hi lo l w x, tidy same hi lo l -> find w l = Some x -> Forall (fun k => adr x <= adr k) (after w l).
Proof.
  intros hi lo l w x T. induction T as [lo L|lo h a b L N A T IH]; intros E; [discriminate|]. unfold find in E. cbn [List.find] in E. cbn [after].
  assert (AB : forall g, same h g \/ g = h -> Forall (fun k => adr g <= adr k) (a ++ b)).
  { intros g Hg. assert (adr g = adr h) as -> by (destruct Hg as [Hg| ->]; unfold same in *; lia). apply Forall_app. split.
    - eapply Forall_impl; [|exact A]. unfold same. intros; lia.
    - rewrite Forall_forall. intros k K. apply (tidy_head _ _ _ _ _ same_fine T) in K. lia. }
  destruct (eqn (who h) w).
  - injection E as <-. apply AB. auto.
  - fold (find w (a ++ b)) in E. clear L. induction A as [|g a GA A IHA]; cbn [app] in *.
    + auto.
    + unfold find in E. cbn [List.find] in E. cbn [after]. destruct (eqn (who g) w).
      * injection E as <-. specialize (AB g (or_introl GA)). inversion AB; auto.
      * apply IHA; auto. intros g' Hg'. specialize (AB g' Hg'). inversion AB; auto.
Qed.
Lemma split_at : forall l w, In w (names l) -> exists p k q, l = p ++ k :: q /\ who k = w /\ ~ In w (names p).
Proof.
  induction l as [|x l IH]; intros w I; [destruct I|]. destruct (eqn_spec (who x) w) as [Q|Q].
  - exists [], x, l. auto.
  - cbn [names map In] in I. destruct (IH w) as (p & k & q & -> & E & NI); [tauto|]. exists (x :: p), k, q. split; auto. split; auto.
    cbn [names map In]. tauto.
Qed.
Lemma after_at : forall p k q w, ~ In w (names p) -> who k = w -> after w (p ++ k :: q) = q.
Proof.
  induction p as [|x p IH]; intros k q w NI E; cbn [app after].
  - rewrite E, eqn_refl. auto.
  - cbn [names map In] in NI. destruct (eqn_spec (who x) w); [tauto|]. apply IH; tauto.
Qed.
Lemma add_after_at : forall s p k q w, ~ In w (names p) -> who k = w -> add_after s w (p ++ k :: q) = p ++ k :: s :: q.
Proof.
  induction p as [|x p IH]; intros k q w NI E; cbn [app add_after].
  - rewrite E, eqn_refl. auto.
  - cbn [names map In] in NI. destruct (eqn_spec (who x) w); [tauto|]. f_equal. apply IH; tauto.
Qed.
Lemma add_before_at : forall s p k q w, ~ In w (names p) -> who k = w -> add_before s w (p ++ k :: q) = p ++ s :: k :: q.
Proof.
  induction p as [|x p IH]; intros k q w NI E; cbn [app add_before].
  - rewrite E, eqn_refl. auto.
  - cbn [names map In] in NI. destruct (eqn_spec (who x) w); [tauto|]. f_equal. apply IH; tauto.
Qed.
Lemma nodup_mid : forall (p q : list handle) k, NoDup (names (p ++ k :: q)) -> ~ In (who k) (names p) /\ ~ In (who k) (names q).
Proof.
  intros p q k N. unfold names in N. rewrite map_app in N. cbn [map] in N. apply NoDup_remove_2 in N. rewrite in_app_iff in N. unfold names. tauto.
Qed.
(** MoveThisAfter is: unlink s, link it right after h *)
Lemma move_same : forall l s h, NoDup (names l) -> who s <> h -> In s l -> In h (names l) -> Forall (fun k => adr s <= adr k) (after h l) ->
  move_after s h l = add_after s h (remove (who s) l).
Proof.
  intros l s h N D I IH F. destruct (split_at l h IH) as (p & k & q & -> & E & NP). rewrite after_at in F by auto. unfold move_after. rewrite after_at by auto.
  pose proof (nodup_mid _ _ _ N) as [_ NQ]. rewrite E in NQ.
  assert (RK : remove (who s) [k] = [k]) by (apply remove_other; cbn [names map In]; rewrite E; intros [X|[]]; congruence).
  assert (SP : remove (who s) (p ++ k :: q) = remove (who s) p ++ k :: remove (who s) q).
  { rewrite remove_app. f_equal. change (k :: q) with ([k] ++ q). rewrite remove_app, RK. auto. }
  assert (NRP : ~ In h (names (remove (who s) p))).
  { intros X. apply NP. unfold names in *. apply in_map_iff in X. destruct X as (z & <- & X). apply in_map. apply remove_in in X. tauto. }
  destruct q as [|y q].
  - cbn [stop_at]. rewrite SP. cbn [remove filter]. rewrite add_after_at by auto. rewrite <- app_assoc. auto.
  - cbn [stop_at]. inversion F; subst. rewrite (proj2 (Z.ltb_ge _ _)) by auto. destruct (eqn_spec (who y) (who s)) as [Y|Y].
    + assert (y = s). { apply (f_equal (fun w => find w (p ++ k :: y :: q))) in Y. rewrite !find_in in Y by (auto; apply in_or_app; right; right; left; auto). congruence. }
      subst y. assert (N' := N). change (p ++ k :: s :: q) with (p ++ [k] ++ s :: q) in N'. rewrite app_assoc in N'. apply nodup_mid in N'. destruct N' as [NP' NQ'].
      rewrite names_app, in_app_iff in NP'. rewrite SP. rewrite remove_other by tauto.
      cbn [remove filter]. rewrite eqn_refl. cbn [negb]. fold (remove (who s) q). rewrite remove_other by auto. rewrite add_after_at by auto. auto.
    + rewrite SP. cbn [remove filter]. destruct (eqn_spec (who y) (who s)); [congruence|]. cbn [negb]. fold (remove (who s) q).
      rewrite add_after_at by auto. change (k :: y :: remove (who s) q) with ([k] ++ y :: remove (who s) q).
      rewrite app_assoc, add_before_at; [rewrite <- app_assoc; auto| |auto].
      rewrite names_app, in_app_iff. intros [X|X].
      * assert (N' := N). change (p ++ k :: y :: q) with (p ++ [k] ++ y :: q) in N'. rewrite app_assoc in N'. apply nodup_mid in N'. destruct N' as [NP' _].
        apply NP'. rewrite names_app, in_app_iff. left. unfold names in *. apply in_map_iff in X. destruct X as (z & <- & X). apply in_map. apply remove_in in X. tauto.
      * assert (N' := N). change (p ++ k :: y :: q) with (p ++ [k] ++ y :: q) in N'. rewrite app_assoc in N'. apply nodup_mid in N'. destruct N' as [NP' _].
        apply NP'. rewrite names_app, in_app_iff. right. auto.
Qed.
End S.
