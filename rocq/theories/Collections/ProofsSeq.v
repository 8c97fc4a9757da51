(** Sequence represents a list by a ring of nodes. *)
From Coq Require Import List Bool Arith Lia.
From Verif.Collections Require Import Spec Model Rep ProofsQ.
Import ListNotations.
Definition ptr := nat -> option nat.
Fixpoint chain (f g : ptr) (s : list nat) : Prop := match s with a :: r => match r with b :: _ => f a = Some b /\ g b = Some a /\ chain f g r | [] => True end | [] => True end.
Lemma chain_cons2 f g a b r : chain f g (a :: b :: r) <-> f a = Some b /\ g b = Some a /\ chain f g (b :: r).
Proof. reflexivity. Qed.
Lemma chain_app f g p : forall a q, chain f g (p ++ a :: q) <-> chain f g (p ++ [a]) /\ chain f g (a :: q).
Proof.
  induction p as [|x p IH]; intros a q; [cbn [app chain]; destruct q; tauto|]. destruct p as [|y p]; cbn [app] in *.
  - rewrite !chain_cons2. cbn [chain]. destruct q; tauto.
  - rewrite !(chain_cons2 f g x y). rewrite (IH a q). tauto.
Qed.
Lemma chain_frame f g f' g' s : (forall x, In x (removelast s) -> f' x = f x) -> (forall x, In x (tl s) -> g' x = g x) -> chain f g s -> chain f' g' s.
Proof.
  induction s as [|a s IH]; auto. destruct s as [|b s]; auto. rewrite !chain_cons2. intros N P (A & B & C).
  split; [rewrite N; auto; now left|]. split; [rewrite P; auto; now left|]. apply IH; auto.
  - intros x H. apply N. cbn [removelast] in *. now right.
  - intros x H. apply P. cbn [tl] in *. now right.
Qed.
(** the ring of a nonempty list, opened at its head *)
Definition cyc (xs : list nat) : list nat := match xs with [] => [] | x :: r => x :: r ++ [x] end.
Definition rg h xs := chain (nxt h) (bck h) (cyc xs).
Definition nul h x := nxt h x = None /\ bck h x = None.
Lemma removelast_app1 {A} (p : list A) a : removelast (p ++ [a]) = p.
Proof. rewrite removelast_app by discriminate. cbn [removelast]. now rewrite app_nil_r. Qed.
Lemma in_rl {A} (x : A) s : In x (removelast s) -> In x s.
Proof. induction s as [|a [|b s] IH]; cbn [removelast In] in *; tauto. Qed.
Lemma in_tl {A} (x : A) s : In x (tl s) -> In x s. Proof. destruct s; cbn [tl In]; auto. Qed.
Lemma in_cyc x xs : In x (cyc xs) <-> In x xs.
Proof. destruct xs as [|a r]; cbn [cyc In]; [tauto|]. rewrite in_app_iff. cbn [In]. tauto. Qed.
Lemma cyc_split xs p a b q : NoDup xs -> cyc xs = p ++ a :: b :: q -> ~ In a p /\ ~ In a (removelast (b :: q)) /\ ~ In b (tl (p ++ [a])) /\ ~ In b q.
Proof.
  intros N E. destruct xs as [|x r]; [destruct p; discriminate|]. cbn [cyc] in E.
  assert (A : NoDup (removelast (p ++ a :: b :: q))) by (rewrite <- E; change (x :: r ++ [x]) with ((x :: r) ++ [x]); now rewrite removelast_app1).
  assert (B : NoDup (tl (p ++ a :: b :: q))). { rewrite <- E. cbn [tl]. apply nd_cons in N as [N1 N2]. apply nd_join; auto; [constructor; auto; constructor|]. intros y I [<-|[]]. auto. }
  rewrite removelast_app in A by discriminate. change (removelast (a :: b :: q)) with (a :: removelast (b :: q)) in A. apply nd_mid in A.
  assert (T : tl (p ++ a :: b :: q) = tl (p ++ [a]) ++ b :: q) by (destruct p as [|y p]; cbn [app tl]; [auto|now rewrite <- app_assoc]).
  rewrite T in B. apply nd_mid in B. tauto.
Qed.
Lemma chain_insert f g p a b q n : chain f g (p ++ a :: b :: q) -> ~ In n (p ++ a :: b :: q) -> ~ In a p /\ ~ In a (removelast (b :: q)) /\ ~ In b (tl (p ++ [a])) /\ ~ In b q ->
  chain (upd (upd f n (Some b)) a (Some n)) (upd (upd g n (Some a)) b (Some n)) (p ++ a :: n :: b :: q).
Proof.
  rewrite chain_app, chain_cons2. intros (C1 & C2 & C3 & C4) N (S1 & S2 & S3 & S4).
  assert (NL : forall x, In x (p ++ a :: b :: q) -> x <> n) by (intros x H ->; auto).
  assert (Na : a <> n) by (apply NL; apply in_app_iff; right; now left). assert (Nb : b <> n) by (apply NL; apply in_app_iff; right; right; now left).
  rewrite chain_app, !chain_cons2. split; [|ru; split; [|split; [|split; [|split]]]]; auto.
  - apply chain_frame with f g; auto; intros x Hx.
    + rewrite removelast_app1 in Hx. rewrite !upd_other; auto; [apply NL; apply in_app_iff; auto|congruence].
    + rewrite !upd_other; auto; [|congruence]. apply NL. apply in_tl in Hx. apply in_app_iff in Hx. apply in_app_iff. cbn [In] in *. tauto.
  - apply chain_frame with f g; auto; intros x Hx.
    + rewrite !upd_other; auto; [|congruence]. apply NL. apply in_rl in Hx. apply in_app_iff. right; now right.
    + cbn [tl] in Hx. rewrite !upd_other; auto; [|congruence]. apply NL. apply in_app_iff. right; right; now right.
Qed.
Lemma chain_remove f g p a n b q : chain f g (p ++ a :: n :: b :: q) -> ~ In n (p ++ a :: b :: q) -> ~ In a p /\ ~ In a (removelast (b :: q)) /\ ~ In b (tl (p ++ [a])) /\ ~ In b q ->
  chain (upd (upd f a (Some b)) n None) (upd (upd g b (Some a)) n None) (p ++ a :: b :: q).
Proof.
  rewrite chain_app, !chain_cons2. intros (C1 & C2 & C3 & C4 & C5 & C6) N (S1 & S2 & S3 & S4).
  assert (NL : forall x, In x (p ++ a :: b :: q) -> x <> n) by (intros x H ->; auto).
  assert (Na : a <> n) by (apply NL; apply in_app_iff; right; now left). assert (Nb : b <> n) by (apply NL; apply in_app_iff; right; right; now left).
  rewrite chain_app, chain_cons2. split; [|ru; split; [|split]]; auto.
  - apply chain_frame with f g; auto; intros x Hx.
    + rewrite removelast_app1 in Hx. rewrite !upd_other; auto; [congruence|apply NL; apply in_app_iff; auto].
    + rewrite !upd_other; auto; [congruence|]. apply NL. apply in_tl in Hx. apply in_app_iff in Hx. apply in_app_iff. cbn [In] in *. tauto.
  - apply chain_frame with f g; auto; intros x Hx.
    + rewrite !upd_other; auto; [congruence|]. apply NL. apply in_rl in Hx. apply in_app_iff. right; now right.
    + cbn [tl] in Hx. rewrite !upd_other; auto; [congruence|]. apply NL. apply in_app_iff. right; right; now right.
Qed.
Lemma rotate f g a u b v : chain f g (cyc (a :: u ++ b :: v)) <-> chain f g (cyc (b :: v ++ a :: u)).
Proof.
  assert (G : forall a u b v, chain f g (cyc (a :: u ++ b :: v)) -> chain f g (cyc (b :: v ++ a :: u))).
  { intros x p y q. cbn [cyc]. rewrite <- !app_assoc. cbn [app]. change (x :: p ++ y :: q ++ [x]) with ((x :: p) ++ y :: q ++ [x]). rewrite chain_app. cbn [app].
    change (y :: q ++ x :: p ++ [y]) with ((y :: q) ++ x :: p ++ [y]). rewrite chain_app. cbn [app]. tauto. }
  split; apply G.
Qed.
Lemma rg_e h h' xs : (forall x, In x xs -> same h h' x) -> rg h xs -> rg h' xs.
Proof. intros E. apply chain_frame; intros x I; apply E; apply in_cyc; [now apply in_rl|now apply in_tl]. Qed.
Lemma nul_e h h' x : same h h' x -> nul h x -> nul h' x. Proof. unfold nul. intros [-> ->]. auto. Qed.
Notation RD := (Rep rg hdS nul).
Lemma init_RD : RD init none. Proof. constructor; unfold none; intros; try contradiction; try exact I; try reflexivity; try constructor; reflexivity. Qed.
Lemma d_get h L l : RD h L -> root h l = hd_error (L l) /\ rg h (L l) /\ NoDup (L l).
Proof. intro R. split; [apply (rH _ _ _ _ _ R)|]. split; [apply (rK _ _ _ _ _ R)|apply (rN _ _ _ _ _ R)]. Qed.
(** neighbours in the ring: c is the node after x, d the one before *)
Lemma cyc_next x u v : exists p b q, cyc (u ++ x :: v) = p ++ x :: b :: q /\ b = hd (hd x u) v.
Proof.
  destruct u as [|c u]; cbn [app cyc hd].
  - destruct v as [|y v]; [exists [], x, []|exists [], y, (v ++ [x])]; auto.
  - rewrite <- app_assoc. cbn [app]. destruct v as [|y v]; [exists (c :: u), c, []|exists (c :: u), y, (v ++ [c])]; auto.
Qed.
Lemma last_app1 {A} (u : list A) x d : List.last (u ++ [x]) d = x. Proof. apply last_last. Qed.
Lemma snoc_last {A} (a : A) u : exists p, a :: u = p ++ [List.last u a].
Proof. destruct u as [|x u] using rev_ind; [exists []; auto|]. exists (a :: u). now rewrite last_last. Qed.
Lemma cyc_prev x u v : exists p q, cyc (u ++ x :: v) = p ++ List.last (x :: v) x :: x :: q /\ u = [] \/ exists p q, cyc (u ++ x :: v) = p ++ List.last u x :: x :: q /\ u <> [].
Proof.
  destruct u as [|c u].
  - destruct (snoc_last x v) as [p E]. exists p, []. left. split; auto. cbn [app cyc]. change (x :: v ++ [x]) with ((x :: v) ++ [x]). replace (List.last (x :: v) x) with (List.last v x) by (now destruct v). rewrite E, <- app_assoc. auto.
  - destruct (snoc_last c u) as [p E]. exists [], []. right. exists p, (v ++ [c]). split; [|discriminate]. cbn [app cyc]. rewrite <- app_assoc. cbn [app]. change (c :: u ++ x :: v ++ [c]) with ((c :: u) ++ x :: v ++ [c]). rewrite E, <- app_assoc. cbn [app].
    replace (List.last (p ++ [List.last u c]) x) with (List.last u c) by (now rewrite last_last). auto.
Qed.
Lemma rg_next h u x v : rg h (u ++ x :: v) -> nxt h x = Some (hd (hd x u) v).
Proof. intro K. destruct (cyc_next x u v) as (p & b & q & E & ->). unfold rg in K. rewrite E, chain_app, chain_cons2 in K. tauto. Qed.
Lemma rg_prev h u x v : rg h (u ++ x :: v) -> bck h x = Some (match u with [] => List.last v x | _ => List.last u x end).
Proof.
  intro K. destruct (cyc_prev x u v) as (p & q & [[E ->]|(p' & q' & E & N)]); unfold rg in K; rewrite E, chain_app, chain_cons2 in K; destruct K as (_ & _ & K & _); rewrite K.
  - f_equal. now destruct v.
  - now destruct u.
Qed.
Lemma d_listed_in h u x v : rg h (u ++ x :: v) -> listed h x = true. Proof. intro K. apply rg_next in K. unfold listed. now rewrite K. Qed.
Lemma d_listed_null h x : nul h x -> listed h x = false. Proof. unfold nul, listed. now intros [-> _]. Qed.
Ltac one h := apply (rep_one rg hdS nul rg_e hdS_e nul_e h); auto.
(** insertion of an unlisted node between neighbours of the ring of list l, giving list xs' *)
Definition ins_at h a b n := setN (setB (setB (setN h n (Some b)) n (Some a)) b (Some n)) a (Some n).
Lemma ins_rep h L l p a b q n xs' r : RD h L -> unlisted L n -> cyc (L l) = p ++ a :: b :: q -> L l <> [] ->
  (chain (nxt (ins_at h a b n)) (bck (ins_at h a b n)) (p ++ a :: n :: b :: q) -> rg (ins_at h a b n) xs') ->
  (forall x, In x xs' <-> x = n \/ In x (L l)) -> NoDup xs' -> r = ins_at h a b n \/ r = setR (ins_at h a b n) l (Some n) -> root r l = hd_error xs' -> RD r (set L l xs').
Proof.
  intros R U E NE C IN ND Er Hr. destruct (d_get h L l R) as (_ & K & N).
  assert (INq : forall x, In x (p ++ a :: b :: q) <-> In x (L l)) by (intro x; rewrite <- E; apply in_cyc).
  assert (Ch : rg (ins_at h a b n) xs').
  { apply C. unfold ins_at. sf. apply chain_insert; [|rewrite INq; apply U|apply cyc_split with (L l); auto]. unfold rg in K. now rewrite E in K. }
  assert (Ia : In a (L l)) by (apply INq; apply in_app_iff; right; now left). assert (Ib : In b (L l)) by (apply INq; apply in_app_iff; right; right; now left).
  assert (Nr : nxt r = nxt (ins_at h a b n) /\ bck r = bck (ins_at h a b n) /\ (forall k, k <> l -> root r k = root h k) /\ last r = last h).
  { destruct Er as [->| ->]; unfold ins_at; sf; repeat split; auto. intros k Nk. now ru. }
  destruct Nr as (R1 & R2 & R3 & R4). one h.
  - intros k Nk. rewrite R4. auto.
  - unfold rg in *. now rewrite R1, R2.
  - intros x I. apply IN in I as [->|I]; auto.
  - intros x I1 I2. unfold same. rewrite R1, R2. unfold ins_at. sf. assert (x <> n) by (intros ->; apply I2; apply IN; auto). assert (x <> a) by (intros ->; auto). assert (x <> b) by (intros ->; auto). now ru.
  - intros x I1 I2. destruct I2. apply IN; auto.
Qed.
Lemma in_mid {A} (x n a : A) u v : In x (u ++ n :: a :: v) <-> x = n \/ In x (u ++ a :: v).
Proof. rewrite !in_app_iff. cbn [In]. intuition congruence. Qed.
Lemma nd_ins {A} (u : list A) n v : NoDup (u ++ v) -> ~ In n (u ++ v) -> NoDup (u ++ n :: v).
Proof. intros A1 B. apply NoDup_Add with (a := n) (l := u ++ v); [apply Add_app|auto]. Qed.
Lemma d_link_at h n b a : bck h b = Some a -> n <> b -> d_link h n b = Some (ins_at h a b n).
Proof. intros E N. unfold d_link. sf. rewrite E. ru. reflexivity. Qed.
Lemma d_front_ok h L l n : RD h L -> unlisted L n -> exists h', d_front h l n = Some h' /\ RD h' (set L l (n :: L l)).
Proof.
  intros R U. destruct (d_get h L l R) as (Hr & K & N). pose proof (U l) as Ul. unfold d_front. rewrite Hr. destruct (L l) as [|x r] eqn:E; cbn [hd_error].
  - eexists. split; [reflexivity|]. one h.
    + intros k Nk. sf. now ru.
    + constructor; auto.
    + unfold hdS. sf. now ru.
    + unfold rg. sf. cbn [cyc app]. rewrite chain_cons2. cbn [chain]. ru. auto.
    + intros x [<-|[]]; auto.
    + intros x I1 I2. cbn [In] in I2. assert (x <> n) by (intros ->; tauto). unfold same. sf. now ru.
    + rewrite E. intros x [].
  - destruct (snoc_last x r) as [p Ep]. set (z := List.last r x) in *.
    assert (Ec : cyc (x :: r) = p ++ z :: x :: []) by (cbn [cyc]; change (x :: r ++ [x]) with ((x :: r) ++ [x]); rewrite Ep, <- app_assoc; auto).
    pose proof (rg_prev h [] x r K) as B. cbv iota in B. fold z in B.
    assert (n <> x) by (intros ->; apply Ul; now left). rewrite (d_link_at h n x z B) by auto. eexists. split; [reflexivity|].
    eapply ins_rep; [exact R|exact U|rewrite E; exact Ec|rewrite E; discriminate| | | |right; reflexivity|sf; now ru].
    + intro C. unfold rg. change (n :: x :: r) with ([] ++ n :: x :: r). change (n :: x :: r) with (n :: [] ++ x :: r). apply (rotate _ _ n [] x r). cbn [app cyc]. rewrite <- app_assoc. cbn [app]. change (x :: r ++ [n; x]) with ((x :: r) ++ [n; x]). rewrite Ep, <- app_assoc. exact C.
    + intro y. rewrite E. cbn [In]. intuition congruence.
    + constructor; auto.
Qed.
Lemma d_tail_ins_ok h L l n x r : RD h L -> unlisted L n -> L l = x :: r -> exists h', d_link h n x = Some h' /\ RD h' (set L l (L l ++ [n])).
Proof.
  intros R U E. destruct (d_get h L l R) as (Hr & K & N). pose proof (U l) as Ul. rewrite E in *. cbn [hd_error] in Hr.
  destruct (snoc_last x r) as [p Ep]. set (z := List.last r x) in *.
  assert (Ec : cyc (x :: r) = p ++ z :: x :: []) by (cbn [cyc]; change (x :: r ++ [x]) with ((x :: r) ++ [x]); rewrite Ep, <- app_assoc; auto).
  pose proof (rg_prev h [] x r K) as B. cbv iota in B. fold z in B.
  assert (n <> x) by (intros ->; apply Ul; now left). rewrite (d_link_at h n x z B) by auto. eexists. split; [reflexivity|].
  eapply ins_rep; [exact R|exact U|rewrite E; exact Ec|rewrite E; discriminate| | | |left; reflexivity|unfold ins_at; sf; now rewrite Hr].
  - intro C. unfold rg. cbn [app cyc]. rewrite <- app_assoc. cbn [app]. change (x :: r ++ [n; x]) with ((x :: r) ++ [n; x]). rewrite Ep, <- app_assoc. exact C.
  - intro y. rewrite E, in_app_iff. cbn [In]. intuition congruence.
  - apply nd_ins; rewrite app_nil_r; auto.
Qed.
Lemma d_insertBef_ok h L l n u x v : RD h L -> unlisted L n -> L l = u ++ x :: v -> exists h', d_insertBef h l n (Some x) = Some h' /\ RD h' (set L l (u ++ n :: x :: v)).
Proof.
  intros R U E. destruct (d_get h L l R) as (Hr & K & N). pose proof (U l) as Ul. unfold d_insertBef. rewrite (d_listed_null h n (rU _ _ _ _ _ R n U)), Hr.
  destruct u as [|c u].
  - cbn [app] in *. rewrite E. cbn [hd_error]. rewrite onb_refl. rewrite <- E. now apply d_front_ok.
  - rewrite E in *. cbn [app hd_error] in *. assert (Ncx : c <> x). { apply nd_cons in N as [N1 _]. intros ->. apply N1. apply in_app_iff. right. now left. }
    rewrite onb_ne by congruence. destruct (snoc_last c u) as [p Ep]. set (z := List.last u c) in *.
    assert (Ec : cyc (c :: u ++ x :: v) = p ++ z :: x :: v ++ [c]) by (cbn [cyc]; change (c :: (u ++ x :: v) ++ [c]) with ((c :: u ++ x :: v) ++ [c]); change (c :: u ++ x :: v) with ((c :: u) ++ x :: v); rewrite Ep, <- !app_assoc; auto).
    pose proof (rg_prev h (c :: u) x v K) as B. replace (List.last (c :: u) x) with z in B by (unfold z; rewrite Ep; now rewrite last_last).
    assert (Nx : n <> x) by (intros ->; apply Ul; right; apply in_app_iff; right; now left). rewrite (d_link_at h n x z B) by auto. eexists. split; [reflexivity|].
    eapply ins_rep; [exact R|exact U|rewrite E; exact Ec|rewrite E; discriminate| | | |left; reflexivity|unfold ins_at; sf; now rewrite Hr].
    + intro C. unfold rg. cbn [cyc]. rewrite <- app_assoc. cbn [app]. change (c :: u ++ n :: x :: v ++ [c]) with ((c :: u) ++ n :: x :: v ++ [c]). rewrite Ep, <- app_assoc. exact C.
    + intro y. rewrite E. cbn [In]. rewrite in_mid. tauto.
    + change (c :: u ++ n :: x :: v) with ((c :: u) ++ n :: x :: v). apply nd_ins; auto.
Qed.
Lemma d_addTail_ok h L l n : RD h L -> unlisted L n -> exists h', d_insertBef h l n None = Some h' /\ RD h' (set L l (L l ++ [n])).
Proof.
  intros R U. destruct (d_get h L l R) as (Hr & K & N). unfold d_insertBef. rewrite (d_listed_null h n (rU _ _ _ _ _ R n U)), Hr.
  destruct (L l) as [|x r] eqn:E; cbn [hd_error onb].
  - pose proof (d_front_ok h L l n R U) as F. rewrite E in F. exact F.
  - pose proof (d_tail_ins_ok h L l n x r R U E) as F. rewrite E in F. exact F.
Qed.
Lemma d_insertAft_ok h L l n u x v : RD h L -> unlisted L n -> L l = u ++ x :: v -> exists h', d_insertAft h l (Some x) n = Some h' /\ RD h' (set L l (u ++ x :: n :: v)).
Proof.
  intros R U E. destruct (d_get h L l R) as (Hr & K & N). pose proof (U l) as Ul. unfold d_insertAft. rewrite (d_listed_null h n (rU _ _ _ _ _ R n U)).
  rewrite E in *. pose proof (rg_next h u x v K) as B. set (b := hd (hd x u) v) in *. rewrite B. sf. ru. cbn [setB']. eexists. split; [reflexivity|].
  change (setN (setB (setB (setN h n (Some b)) n (Some x)) b (Some n)) x (Some n)) with (ins_at h x b n).
  assert (Ec : exists q, cyc (u ++ x :: v) = (u ++ x :: b :: q) /\ (b :: q) = v ++ [hd x u]).
  { unfold b. destruct v as [|y v]; [exists []|exists (v ++ [hd x u])]; (split; [|reflexivity]); (destruct u as [|c u]; cbn [app cyc hd]; [reflexivity|rewrite <- app_assoc; reflexivity]). }
  destruct Ec as (q & Ec & Eq).
  eapply ins_rep; [exact R|exact U|rewrite E; exact Ec|rewrite E; destruct u; discriminate| | | |left; reflexivity|].
  - intro C. unfold rg. replace (cyc (u ++ x :: n :: v)) with (u ++ x :: n :: b :: q); [exact C|]. rewrite Eq. destruct u as [|c u]; cbn [app cyc hd]; [reflexivity|rewrite <- app_assoc; reflexivity].
  - intro y. rewrite E, !in_app_iff. cbn [In]. intuition congruence.
  - replace (u ++ x :: n :: v) with ((u ++ [x]) ++ n :: v) by now rewrite <- app_assoc. apply nd_ins; rewrite <- app_assoc; auto.
  - unfold ins_at. sf. rewrite Hr. destruct u; reflexivity.
Qed.
Lemma last_cons {A} (y : A) v x : List.last (y :: v) x = List.last v y.
Proof. revert y x. induction v as [|z v IH]; intros y x; auto. change (List.last (y :: z :: v) x) with (List.last (z :: v) x). now rewrite !IH. Qed.
(** removal *)
Definition rem_at h a b n := setN (setB (setN (setB h b (Some a)) a (Some b)) n None) n None.
Lemma rem_rep h L l p a b q x xs' r : RD h L -> chain (nxt h) (bck h) (p ++ a :: x :: b :: q) -> cyc xs' = p ++ a :: b :: q -> In x (L l) ->
  (forall y, In y xs' <-> y <> x /\ In y (L l)) -> NoDup xs' -> nxt r = nxt (rem_at h a b x) -> bck r = bck (rem_at h a b x) ->
  (forall k, k <> l -> root r k = root h k) -> last r = last h -> root r l = hd_error xs' -> RD r (set L l xs').
Proof.
  intros R C E Ix IN ND R1 R2 R3 R4 R5.
  assert (INq : forall y, In y (p ++ a :: b :: q) <-> In y xs') by (intro y; rewrite <- E; apply in_cyc).
  assert (Ia : In a xs') by (apply INq; apply in_app_iff; right; now left). assert (Ib : In b xs') by (apply INq; apply in_app_iff; right; right; now left).
  one h.
  - intros k Nk. rewrite R4. auto.
  - unfold rg. rewrite R1, R2, E. unfold rem_at. sf. apply chain_remove; auto; [rewrite INq, IN; tauto|apply cyc_split with xs'; auto].
  - intros y I. apply IN in I. tauto.
  - intros y I1 I2. unfold same. rewrite R1, R2. unfold rem_at. sf. assert (y <> a) by (intros ->; auto). assert (y <> b) by (intros ->; auto). assert (y <> x) by (intros ->; auto). now ru.
  - intros y I1 I2. destruct (Nat.eq_dec y x) as [->|Ny]; [|destruct I2; apply IN; auto]. unfold nul. rewrite R1, R2. unfold rem_at. sf. now ru.
Qed.
Lemma d_remove_ok h L l u x v : RD h L -> L l = u ++ x :: v -> exists h', d_remove h l x = Some h' /\ RD h' (set L l (u ++ v)).
Proof.
  intros R E. destruct (d_get h L l R) as (Hr & K & N). unfold d_remove. rewrite E in *. rewrite (d_listed_in h u x v K). cbn [negb].
  pose proof (rg_next h u x v K) as Bn. pose proof (rg_prev h u x v K) as Bp. pose proof N as N0. apply nd_mid in N as (N1 & N2 & N3).
  assert (Rt : onb (Some x) (root h l) = match u with [] => true | _ => false end). { rewrite Hr. destruct u as [|c u]; cbn [app hd_error]; [apply onb_refl|]. apply onb_ne. intros [= ->]. apply N1. now left. }
  assert (IN : forall y, In y (u ++ v) <-> y <> x /\ In y (L l)).
  { intro y. rewrite E, !in_app_iff. cbn [In]. split; [intros [I|I]; split; auto; intros ->; tauto|]. intros [I1 [I|[I|I]]]; auto. congruence. }
  assert (Ix : In x (L l)) by (rewrite E; apply in_app_iff; right; now left).
  rewrite Rt. destruct u as [|c u].
  - cbn [app hd] in *. destruct v as [|y v].
    + cbn [hd List.last] in *. rewrite Bn, onb_refl. sf. rewrite Bn. cbn [setB']. sf. ru. rewrite Bp. cbn [setN']. sf. ru. rewrite ?Bn. eexists. split; [reflexivity|]. one h.
      * intros k Nk. sf. now ru.
      * unfold hdS. sf. now ru.
      * exact I.
      * intros z [].
      * rewrite E. intros z I1 I2. cbn [In] in I1. assert (z <> x) by (intros ->; tauto). unfold same. sf. now ru.
      * rewrite E. intros z [<-|[]] _. unfold nul. sf. now ru.
    + cbn [hd] in Bn. cbn [In] in N2. assert (Ny : y <> x) by tauto. rewrite Bn, onb_ne by congruence. sf. rewrite Bn, Bp. cbn [setB']. sf. ru. rewrite Bp. cbn [setN']. sf. rewrite Bn.
      destruct (snoc_last y v) as [p Ep]. rewrite last_cons in *. set (z := List.last v y) in *. eexists. split; [reflexivity|].
      eapply (rem_rep h L l p z y [] x (y :: v)); eauto; sf.
      * unfold rg in K. change (x :: y :: v) with (x :: [] ++ y :: v) in K. rewrite rotate in K. cbn [cyc app] in K. rewrite <- app_assoc in K. cbn [app] in K. change (y :: v ++ [x; y]) with ((y :: v) ++ [x; y]) in K. rewrite Ep, <- app_assoc in K. exact K.
      * cbn [cyc]. change (y :: v ++ [y]) with ((y :: v) ++ [y]). rewrite Ep, <- app_assoc. reflexivity.
      * intros k Nk. now ru.
      * now ru.
  - cbn [app hd] in *. set (b := hd c v) in *. destruct (snoc_last c u) as [p Ep]. rewrite last_cons in Bp. set (z := List.last u c) in *.
    assert (Nb : b <> x). { unfold b. destruct v as [|y v]; cbn [hd]; intros ->; [apply N1; now left|apply N2; now left]. }
    rewrite Bn, Bp. cbn [setB']. sf. ru. rewrite Bp. cbn [setN']. sf. rewrite ?Bn. eexists. split; [reflexivity|].
    assert (Eq : exists q, b :: q = v ++ [c]) by (unfold b; destruct v as [|y v]; [exists []|exists (v ++ [c])]; reflexivity). destruct Eq as [q Eq].
    eapply (rem_rep h L l p z b q x (c :: u ++ v)); eauto; sf.
    + unfold rg in K. cbn [cyc] in K. rewrite <- app_assoc in K. cbn [app] in K. change (c :: u ++ x :: v ++ [c]) with ((c :: u) ++ x :: v ++ [c]) in K. rewrite Ep, <- app_assoc, <- Eq in K. exact K.
    + cbn [cyc]. rewrite <- app_assoc, <- Eq. change (c :: u ++ b :: q) with ((c :: u) ++ b :: q). rewrite Ep, <- app_assoc. reflexivity.
Qed.
Lemma cyc_open f g x r : chain f g (cyc (x :: r)) <-> chain f g (x :: r) /\ f (List.last r x) = Some x /\ g x = Some (List.last r x).
Proof.
  cbn [cyc]. change (x :: r ++ [x]) with ((x :: r) ++ [x]). destruct (snoc_last x r) as [p Ep]. rewrite !Ep. rewrite <- app_assoc. cbn [app]. rewrite chain_app, chain_cons2. cbn [chain]. tauto.
Qed.
Lemma chain_join f g x r y w : chain f g (x :: r ++ y :: w) <-> chain f g (x :: r) /\ f (List.last r x) = Some y /\ g y = Some (List.last r x) /\ chain f g (y :: w).
Proof.
  change (x :: r ++ y :: w) with ((x :: r) ++ y :: w). destruct (snoc_last x r) as [p Ep]. rewrite !Ep. rewrite <- app_assoc. cbn [app]. rewrite chain_app, chain_cons2. tauto.
Qed.
Lemma last_in {A} (x : A) r : In (List.last r x) (x :: r).
Proof. destruct (snoc_last x r) as [p E]. rewrite E. apply in_app_iff. right. now left. Qed.
Lemma in_rl_last {A} (x y : A) r : NoDup (x :: r) -> In y (removelast (x :: r)) -> y <> List.last r x /\ In y (x :: r).
Proof. destruct (snoc_last x r) as [p E]. intros N I. split; [|now apply in_rl]. rewrite E, removelast_app1 in I. rewrite E in N. apply nd_mid in N as (N & _). intros ->. auto. Qed.
Lemma last_app_cons {A} (r : list A) y w x : List.last (r ++ y :: w) x = List.last w y.
Proof. revert x. induction r as [|z r IH]; intro x; cbn [app]; rewrite last_cons; auto. Qed.
Lemma d_append_ok h s xs y w : root h s = hd_error xs -> rg h xs -> rg h (y :: w) -> NoDup (xs ++ y :: w) ->
  exists h', d_append h s (Some y) = Some h' /\ root h' s = hd_error (xs ++ y :: w) /\ rg h' (xs ++ y :: w) /\ (forall k, k <> s -> root h' k = root h k) /\ last h' = last h /\ (forall x, ~ In x (xs ++ y :: w) -> same h h' x).
Proof.
  intros Hr K1 K2 N. unfold d_append. rewrite Hr. destruct xs as [|x r]; cbn [hd_error app] in *.
  - eexists. split; [reflexivity|]. sf. ru. split; [auto|]. split; [exact K2|]. split; [intros k Nk; now ru|]. split; [auto|]. intros; split; reflexivity.
  - unfold rg in *. rewrite cyc_open in K1, K2. destruct K1 as (C1 & C2 & C3), K2 as (D1 & D2 & D3). rewrite C3, D3. set (z := List.last r x) in *. set (t := List.last w y) in *.
    cbn [setN']. eexists. split; [reflexivity|]. change (x :: r ++ y :: w) with ((x :: r) ++ y :: w) in N. apply nd_split in N as (N1 & N2 & N3).
    assert (Iz : In z (x :: r)) by apply last_in. assert (It : In t (y :: w)) by apply last_in. assert (Ix : In x (x :: r)) by now left. assert (Iy : In y (y :: w)) by now left.
    assert (z <> t) by (intro Q; apply (N3 z); auto; congruence). assert (x <> y) by (intro Q; apply (N3 x); auto; congruence).
    split; [sf; auto|]. split; [|split; [auto|split; [auto|]]].
    + rewrite cyc_open, chain_join, last_app_cons. fold z t. sf. ru. repeat split; auto.
      * revert C1. apply chain_frame; intros v Iv.
        -- apply in_rl_last in Iv as [V1 V2]; auto. fold z in V1. rewrite !upd_other; auto. intros ->. exact (N3 t V2 It).
        -- cbn [tl] in Iv. apply nd_cons in N1 as [N4 N5]. rewrite !upd_other; auto; [intros ->; auto|]. intros ->. exact (N3 y (or_intror Iv) Iy).
      * revert D1. apply chain_frame; intros v Iv.
        -- apply in_rl_last in Iv as [V1 V2]; auto. fold t in V1. rewrite !upd_other; auto. intros ->. exact (N3 z Iz V2).
        -- cbn [tl] in Iv. apply nd_cons in N2 as [N4 N5]. rewrite !upd_other; auto; [|intros ->; auto]. intros ->. exact (N3 x Ix (or_intror Iv)).
    + intros v Nv. change (x :: r ++ y :: w) with ((x :: r) ++ y :: w) in Nv. rewrite in_app_iff in Nv. unfold same. sf.
      assert (v <> z) by (intros ->; auto). assert (v <> t) by (intros ->; auto). assert (v <> x) by (intros ->; auto). assert (v <> y) by (intros ->; auto). now ru.
Qed.
Ltac two h := apply (rep_two rg hdS nul rg_e hdS_e nul_e h); auto.
Lemma d_transfer_ok h L s f : RD h L -> s <> f -> exists h', d_transfer h s f = Some h' /\ RD h' (set (set L f []) s (L s ++ L f)).
Proof.
  intros R N. destruct (d_get h L s R) as (Hr & K & ND). destruct (d_get h L f R) as (Hr2 & K2 & ND2). unfold d_transfer, empty. rewrite Hr2.
  assert (NJ : NoDup (L s ++ L f)). { apply nd_join; auto. intros x I J. exact (N (rD _ _ _ _ _ R s f x I J)). }
  destruct (L f) as [|y w] eqn:E; cbn [hd_error].
  - exists h. split; auto. rewrite app_nil_r in *. two h; [rewrite E; tauto|intros; split; reflexivity].
  - destruct (d_append_ok h s (L s) y w Hr K K2 NJ) as (h' & A1 & A2 & A3 & A4 & A5 & A6). rewrite A1. eexists. split; [reflexivity|]. two h.
    + intros k N1 N2. sf. ru. rewrite A5. auto.
    + unfold hdS. sf. now ru.
    + constructor.
    + unfold hdS. sf. now ru.
    + exact I.
    + intro x. rewrite E, in_app_iff. cbn [In]. tauto.
    + intros x I1 _. apply A6. auto.
Qed.
Lemma d_split_ok h L s f u x v : RD h L -> s <> f -> L f = u ++ x :: v -> exists h', d_split h s f x = Some h' /\ RD h' (set (set L f v) s (L s ++ u ++ [x])).
Proof.
  intros R N E. destruct (d_get h L s R) as (Hr & K & ND). destruct (d_get h L f R) as (Hr2 & K2 & ND2). unfold d_split. rewrite E in *. rewrite (d_listed_in h u x v K2). cbn [negb].
  assert (NJ : NoDup (L s ++ u ++ x :: v)). { apply nd_join; auto. intros y I J. apply N, (rD _ _ _ _ _ R s f y I). now rewrite E. }
  pose proof (rg_next h u x v K2) as Bn.
  assert (Hh : exists a w, u ++ [x] = a :: w /\ root h f = Some a /\ a = hd x u /\ List.last w a = x /\ u ++ x :: v = a :: w ++ v).
  { destruct u as [|a u]; [exists x, []|exists a, (u ++ [x])]; repeat split; auto; [apply last_last|cbn [app]; now rewrite <- app_assoc]. }
  destruct Hh as (a & w & Q1 & Q2 & Q3 & Q4 & Q5). rewrite Q2. sf. ru. rewrite Bn, <- Q3.
  set (st := if onb _ _ then _ else _).
  assert (NN : NoDup (a :: w ++ v)) by now rewrite <- Q5. change (a :: w ++ v) with ((a :: w) ++ v) in NN. apply nd_split in NN as (M1 & M2 & M3).
  assert (P : exists h4, st = Some h4 /\ rg h4 (a :: w) /\ rg h4 v /\ root h4 f = hd_error v /\ (forall k, k <> f -> root h4 k = root h k) /\ last h4 = last h /\ (forall y, ~ In y (a :: w ++ v) -> same h h4 y)).
  { unfold st. unfold rg in K2. rewrite Q5 in K2. destruct v as [|y v]; cbn [hd].
    - rewrite onb_refl. eexists. split; [reflexivity|]. sf. rewrite app_nil_r in K2. ru. split; [exact K2|]. split; [exact I|]. split; [auto|]. split; [intros k Nk; now ru|]. split; [auto|]. intros; split; reflexivity.
    - assert (Nay : a <> y). { intros ->. exact (M3 y (or_introl eq_refl) (or_introl eq_refl)). } rewrite onb_ne by congruence. sf. ru.
      pose proof K2 as K3. rewrite cyc_open, last_app_cons, chain_join, Q4 in K3. destruct K3 as ((C1 & C2 & C3 & C4) & C5 & C6). set (t := List.last v y) in *.
      ru. rewrite C6. cbn [setN']. eexists. split; [reflexivity|]. sf. ru.
      assert (Ix : In x (a :: w)) by (rewrite <- Q4; apply last_in). assert (It : In t (y :: v)) by apply last_in. assert (Nxt : x <> t) by (intro Q; apply (M3 x); auto; congruence).
      unfold rg. sf. rewrite !cyc_open. fold t. rewrite Q4. ru. split; [split; [|auto]|split; [split; [|auto]|split; [auto|split; [|split; [auto|]]]]].
      + revert C1. apply chain_frame; intros z Iz.
        * apply in_rl_last in Iz as [V1 V2]; auto. rewrite Q4 in V1. rewrite !upd_other; auto. intros ->. exact (M3 t V2 It).
        * cbn [tl] in Iz. apply nd_cons in M1 as [M4 M5]. rewrite !upd_other; auto; [|intros ->; auto]. intros ->. exact (M3 y (or_intror Iz) (or_introl eq_refl)).
      + revert C4. apply chain_frame; intros z Iz.
        * apply in_rl_last in Iz as [V1 V2]; auto. fold t in V1. rewrite !upd_other; auto. intros ->. exact (M3 x Ix V2).
        * cbn [tl] in Iz. apply nd_cons in M2 as [M4 M5]. rewrite !upd_other; auto; [intros ->; auto|]. intros ->. exact (M3 a (or_introl eq_refl) (or_intror Iz)).
      + intros k Nk. now ru.
      + intros z Nz. change (a :: w ++ y :: v) with ((a :: w) ++ y :: v) in Nz. rewrite in_app_iff in Nz. unfold same. sf.
        assert (z <> a) by (intros ->; apply Nz; left; now left). assert (z <> x) by (intros ->; auto). assert (z <> t) by (intros ->; auto). assert (z <> y) by (intros ->; apply Nz; right; now left). now ru. }
  destruct P as (h4 & P0 & P1 & P2 & P3 & P4 & P5 & P6). rewrite P0.
  assert (DI : forall z, In z (L s) -> ~ In z (a :: w ++ v)). { rewrite <- Q5. apply nd_split in NJ. tauto. }
  assert (NJ2 : NoDup (L s ++ a :: w)). { apply nd_join; auto. intros z I J. apply (DI z I). change (a :: w ++ v) with ((a :: w) ++ v). apply in_app_iff. auto. }
  destruct (d_append_ok h4 s (L s) a w) as (h' & A1 & A2 & A3 & A4 & A5 & A6); auto; [rewrite P4; auto|apply rg_e with h; auto|].
  rewrite A1. exists h'. split; auto. rewrite Q1.
  assert (DV : forall z, In z v -> ~ In z (L s ++ a :: w)).
  { intros z I J. apply in_app_iff in J as [J|J]; [|exact (M3 z J I)]. apply (DI z J). change (a :: w ++ v) with ((a :: w) ++ v). apply in_app_iff. auto. }
  two h.
  - intros k N1 N2. rewrite A4, P4, A5, P5 by auto. auto.
  - unfold hdS. rewrite A4 by auto. auto.
  - apply rg_e with h4; auto.
  - intro z. rewrite E, Q5. change (a :: w ++ v) with ((a :: w) ++ v). rewrite !in_app_iff. tauto.
  - intros z I J. exact (DV z J I).
  - intros z I J. rewrite in_app_iff in I. destruct (A6 z) as [B1 B2]; [rewrite in_app_iff; auto|]. destruct (P6 z) as [B3 B4]; [|split; congruence]. change (a :: w ++ v) with ((a :: w) ++ v). rewrite in_app_iff. tauto.
Qed.
(** answers *)
Lemma d_succ_ok h L l u x v : RD h L -> L l = u ++ x :: v -> d_succ h l x = Some (hd_error v).
Proof.
  intros R E. destruct (d_get h L l R) as (Hr & K & N). rewrite E in *. unfold d_succ. rewrite (d_listed_in h u x v K). cbn [negb]. rewrite (rg_next h u x v K), Hr. f_equal.
  replace (hd_error (u ++ x :: v)) with (Some (hd x u)) by (destruct u; reflexivity). destruct v as [|y v]; cbn [hd hd_error]; [now rewrite onb_refl|]. rewrite onb_ne; auto. intros [= ->].
  destruct u as [|c u]; cbn [hd app] in *; [apply nd_cons in N as [N _]; apply N; now left|]. apply nd_cons in N as [N _]. apply N. apply in_app_iff. right. right. now left.
Qed.
Lemma d_pred_ok h L l u x v : RD h L -> L l = u ++ x :: v -> d_pred h l x = Some (hd_error (rev u)).
Proof.
  intros R E. destruct (d_get h L l R) as (Hr & K & N). rewrite E in *. unfold d_pred. rewrite (d_listed_in h u x v K). cbn [negb]. rewrite (rg_prev h u x v K), Hr. f_equal.
  destruct u as [|c u]; cbn [app hd_error]; [now rewrite onb_refl|]. rewrite onb_ne; [|intros [= ->]; apply nd_mid in N as (N & _); apply N; now left].
  destruct (snoc_last c u) as [p Ep]. rewrite last_cons, Ep, rev_unit. reflexivity.
Qed.
Lemma d_tail_ok h L l : RD h L -> d_tail h l = hd_error (rev (L l)).
Proof.
  intros R. destruct (d_get h L l R) as (Hr & K & N). unfold d_tail. rewrite Hr. destruct (L l) as [|x r]; auto. cbn [hd_error]. rewrite (rg_prev h [] x r K).
  destruct (snoc_last x r) as [p Ep]. rewrite Ep, rev_unit. reflexivity.
Qed.
Lemma d_iter_ok h L l : RD h L -> forall v u k, L l = u ++ v -> length v <= k -> d_iter h l (hd_error v) k = Some v.
Proof.
  intros R. destruct (d_get h L l R) as (Hr & K & N). induction v as [|x v IH]; intros u k E Lk; [destruct k; reflexivity|]. destruct k as [|k]; [cbn [length] in Lk; lia|]. cbn [hd_error d_iter].
  rewrite (d_succ_ok h L l u x v R E). assert (Q : (if onb (hd_error v) (root h l) then None else hd_error v) = hd_error v).
  { destruct v as [|y v]; cbn [hd_error]; [now destruct (onb _ _)|]. rewrite onb_ne; auto. rewrite Hr, E. rewrite E in N. intro C. destruct u as [|c u]; cbn [app hd_error] in *; injection C as ->; apply nd_cons in N as [N _]; apply N; [now left|]. apply in_app_iff. right. right. now left. }
  rewrite Q, (IH (u ++ [x])); auto; [now rewrite <- app_assoc|cbn [length] in Lk; lia].
Qed.
Lemma d_iterRev_ok h L l : RD h L -> forall u v k, L l = rev u ++ v -> length u <= k -> d_iterRev h l (hd_error u) k = Some u.
Proof.
  intros R. destruct (d_get h L l R) as (Hr & K & N). pose proof (d_tail_ok h L l R) as T. induction u as [|x u IH]; intros v k E Lk; [destruct k; reflexivity|]. destruct k as [|k]; [cbn [length] in Lk; lia|]. cbn [hd_error d_iterRev].
  cbn [rev] in E. rewrite <- app_assoc in E. cbn [app] in E. rewrite (d_pred_ok h L l (rev u) x v R E), rev_involutive. assert (Q : (if onb (hd_error u) (d_tail h l) then None else hd_error u) = hd_error u).
  { destruct u as [|y u]; cbn [hd_error]; [now destruct (onb _ _)|]. rewrite onb_ne; auto. rewrite T, E. rewrite E in N. intro C. apply nd_split in N as (_ & _ & N). apply (N y); [apply -> in_rev; now left|]. apply in_rev. rewrite rev_app_distr in C. destruct (rev (x :: v)) as [|t r] eqn:Q; [apply (f_equal (@length nat)) in Q; rewrite rev_length in Q; discriminate|]. cbn [app hd_error] in C. injection C as ->. now left. }
  rewrite Q, (IH (x :: v)); auto. cbn [length] in Lk; lia.
Qed.
Lemma sim_seq k h L o L' r : RD h L -> spec L o L' r -> big L o k -> exists h', exec_seq k h o = Some (h', r) /\ RD h' L'.
Proof.
  intros R Sp B. destruct Sp; cbn [exec_seq big] in *.
  - unfold d_insertAft. rewrite (d_listed_null h n (rU _ _ _ _ _ R n H)). destruct (d_front_ok h L l n R) as (h' & A1 & A2); auto. rewrite A1. exists h'; auto.
  - destruct (d_addTail_ok h L l n R) as (h' & A1 & A2); auto. rewrite A1. exists h'; auto.
  - destruct (d_get h L l R) as (Hr & _). rewrite Hr, H. unfold d_drop. cbn [hd_error]. destruct (d_remove_ok h L l [] x v R) as (h' & A1 & A2); auto. rewrite A1. exists h'; auto.
  - destruct (d_get h L l R) as (Hr & _). rewrite Hr, H. exists h. auto.
  - rewrite (d_tail_ok h L l R), H, rev_unit. unfold d_drop. cbn [hd_error]. destruct (d_remove_ok h L l u x [] R) as (h' & A1 & A2); auto. rewrite A1. rewrite app_nil_r in A2. exists h'; auto.
  - rewrite (d_tail_ok h L l R), H. exists h. auto.
  - destruct (d_remove_ok h L l u x v R) as (h' & A1 & A2); auto. rewrite A1. exists h'; auto.
  - destruct (d_transfer_ok h L s f R) as (h' & A1 & A2); auto. rewrite A1. exists h'; auto.
  - destruct (d_split_ok h L s f u x v R) as (h' & A1 & A2); auto. rewrite A1. exists h'; auto.
  - exists h. destruct (d_get h L l R) as (Hr & _). rewrite Hr. auto.
  - exists h. rewrite (d_tail_ok h L l R). auto.
  - exists h. destruct (d_get h L l R) as (Hr & _). unfold empty. rewrite Hr. split; auto. now destruct (L l).
  - exists h. apply in_split in H as (u & v & E). pose proof (rK _ _ _ _ _ R l) as K. rewrite E in K. rewrite (d_listed_in h u n v K). auto.
  - exists h. rewrite (d_listed_null h n (rU _ _ _ _ _ R n H)). auto.
  - exists h. rewrite (d_succ_ok h L l u x v R H). auto.
  - exists h. rewrite (d_pred_ok h L l u x v R H). auto.
  - destruct (d_insertBef_ok h L l n u x v R) as (h' & A1 & A2); auto. rewrite A1. exists h'; auto.
  - destruct (d_addTail_ok h L l n R) as (h' & A1 & A2); auto. rewrite A1. exists h'; auto.
  - destruct (d_insertAft_ok h L l n u x v R) as (h' & A1 & A2); auto. rewrite A1. exists h'; auto.
  - unfold d_insertAft. rewrite (d_listed_null h n (rU _ _ _ _ _ R n H)). destruct (d_front_ok h L l n R) as (h' & A1 & A2); auto. rewrite A1. exists h'; auto.
  - exists h. destruct (d_get h L l R) as (Hr & _). rewrite Hr, (d_iter_ok h L l R (L l) []); auto.
  - exists h. rewrite (d_tail_ok h L l R), (d_iterRev_ok h L l R (rev (L l)) []); auto; [now rewrite rev_involutive, app_nil_r|now rewrite rev_length].
Qed.
