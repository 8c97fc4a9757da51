(** Representation of lists by links. *)
From Coq Require Import List Bool Arith Lia FinFun.
From Verif.DList Require Import Spec Model.
Import ListNotations.

Lemma refbP a b : reflect (a = b) (refb a b).
Proof. destruct a, b; cbn [refb]; try (constructor; congruence); destruct (Nat.eqb_spec l l0) || destruct (Nat.eqb_spec n n0); constructor; congruence. Qed.
Lemma put_same f a x : put f a x a = x. Proof. unfold put. destruct (refbP a a); congruence. Qed.
Lemma put_other f a x b : b <> a -> put f a x b = f b. Proof. intro; unfold put. destruct (refbP b a); congruence. Qed.
Fixpoint chain (h : heap) (s : list ref) : Prop := match s with a :: r => match r with b :: _ => nx h a = Some b /\ pv h b = Some a /\ chain h r | [] => True end | [] => True end.
Lemma chain_cons2 h a b r : chain h (a :: b :: r) <-> nx h a = Some b /\ pv h b = Some a /\ chain h (b :: r).
Proof. reflexivity. Qed.
Lemma chain_app h p : forall a q, chain h (p ++ a :: q) <-> chain h (p ++ [a]) /\ chain h (a :: q).
Proof.
  induction p as [|x p IH]; intros a q; [cbn [app chain]; destruct q; tauto|]. destruct p as [|y p]; cbn [app] in *.
  - rewrite !chain_cons2. cbn [chain]. destruct q; tauto.
  - rewrite !(chain_cons2 h x y). rewrite (IH a q). tauto.
Qed.
Lemma chain_frame h h' s : (forall x, In x (removelast s) -> nx h' x = nx h x) -> (forall x, In x (tl s) -> pv h' x = pv h x) -> chain h s -> chain h' s.
Proof.
  induction s as [|a s IH]; auto. destruct s as [|b s]; auto. rewrite !chain_cons2. intros N P (A & B & C).
  split; [rewrite N; auto; now left|]. split; [rewrite P; auto; now left|]. apply IH; auto.
  - intros x H. apply N. cbn [removelast] in *. now right.
  - intros x H. apply P. cbn [tl] in *. now right.
Qed.
Definition ring (l : nat) (xs : list nat) : list ref := Orig l :: map Node xs ++ [Orig l].
Record Rep (h : heap) (L : lists) : Prop := {
  rN : forall l, NoDup (L l);
  rC : forall l, chain h (ring l (L l));
  rD : forall l k n, In n (L l) -> In n (L k) -> l = k;
  rU : forall n, unlisted L n -> nx h (Node n) = None /\ pv h (Node n) = None }.
Lemma init_rep : Rep init (fun _ => []).
Proof. constructor; try (intros; contradiction). - constructor. - intro l. cbn. auto. - intros n _. cbn. auto. Qed.
Lemma removelast_app1 {A} (p : list A) a : removelast (p ++ [a]) = p.
Proof. rewrite removelast_app by discriminate. cbn. now rewrite app_nil_r. Qed.
Lemma ring_nodup l xs : NoDup xs -> NoDup (removelast (ring l xs)) /\ NoDup (tl (ring l xs)).
Proof.
  intro N. assert (M : NoDup (map Node xs)) by (apply Injective_map_NoDup; auto; intros a b; congruence).
  assert (O : ~ In (Orig l) (map Node xs)) by (rewrite in_map_iff; intros (x & H & _); discriminate).
  split.
  - unfold ring. change (Orig l :: map Node xs ++ [Orig l]) with ((Orig l :: map Node xs) ++ [Orig l]). rewrite removelast_app1. now constructor.
  - cbn [ring tl]. apply NoDup_Add with (a := Orig l) (l := map Node xs); [rewrite <- (app_nil_r (map Node xs)) at 1; apply Add_app|auto].
Qed.
Lemma nodup_mid {A} (p : list A) a q : NoDup (p ++ a :: q) -> ~ In a p /\ ~ In a q.
Proof. intro N. apply NoDup_remove_2 in N. rewrite in_app_iff in N. tauto. Qed.
Lemma ring_split l xs p a b q : NoDup xs -> ring l xs = p ++ a :: b :: q -> ~ In a p /\ ~ In a (removelast (b :: q)) /\ ~ In b (tl (p ++ [a])) /\ ~ In b q.
Proof.
  intros N E. destruct (ring_nodup l xs N) as [A B]. rewrite E in A, B.
  rewrite removelast_app in A by discriminate. change (removelast (a :: b :: q)) with (a :: removelast (b :: q)) in A. apply nodup_mid in A.
  assert (T : tl (p ++ a :: b :: q) = tl (p ++ [a]) ++ b :: q) by (destruct p as [|x p]; cbn [app tl]; [auto|now rewrite <- app_assoc]).
  rewrite T in B. apply nodup_mid in B. tauto.
Qed.
Lemma in_rl {A} (x : A) s : In x (removelast s) -> In x s.
Proof. induction s as [|a [|b s] IH]; cbn [removelast In] in *; tauto. Qed.
Lemma in_tl {A} (x : A) s : In x (tl s) -> In x s. Proof. destruct s; cbn; auto. Qed.
Lemma ring_in l xs x : In x (ring l xs) <-> x = Orig l \/ exists n, x = Node n /\ In n xs.
Proof.
  unfold ring. cbn [In]. rewrite in_app_iff, in_map_iff. cbn [In]. split.
  - intros [H|[(n & H & I)|[H|[]]]]; eauto.
  - intros [H|(n & -> & I)]; eauto.
Qed.
Lemma set_same L l xs : set L l xs l = xs. Proof. unfold set. now rewrite Nat.eqb_refl. Qed.
Lemma set_other L l xs k : k <> l -> set L l xs k = L k. Proof. intro; unfold set. destruct (Nat.eqb_spec k l); congruence. Qed.
Definition ins_at (h : heap) (a b : ref) (n : nat) : heap := H (put (put (nx h) (Node n) (Some b)) a (Some (Node n))) (put (put (pv h) (Node n) (Some a)) b (Some (Node n))).
Definition rem_at (h : heap) (a b : ref) (n : nat) : heap := H (put (put (nx h) a (Some b)) (Node n) None) (put (put (pv h) b (Some a)) (Node n) None).
Lemma other_ring h L l k p a b q (R : Rep h L) : ring l (L l) = p ++ a :: b :: q -> k <> l -> forall x, In x (ring k (L k)) -> x <> a /\ x <> b.
Proof.
  intros E N x Hx. assert (forall y, In y (ring l (L l)) -> x <> y).
  { intros y Hy ->. apply ring_in in Hx, Hy. destruct Hx as [->|(n & -> & A)], Hy as [Hy|(m & Hy & B)]; try congruence. injection Hy as ->. apply N. eapply (rD _ _ R); eauto. }
  split; apply H; rewrite E; apply in_app_iff; right; cbn [In]; auto.
Qed.
Lemma rep_insert h L l p a b q n xs' : Rep h L -> unlisted L n -> ring l (L l) = p ++ a :: b :: q -> ring l xs' = p ++ a :: Node n :: b :: q ->
  (forall x, In x xs' <-> x = n \/ In x (L l)) -> NoDup xs' -> Rep (ins_at h a b n) (set L l xs').
Proof.
  intros R U E E' IN ND.
  destruct (ring_split l (L l) p a b q (rN _ _ R l) E) as (S1 & S2 & S3 & S4).
  assert (NR : forall x k, In x (ring k (L k)) -> x <> Node n). { intros x k H ->. apply ring_in in H as [H|(m & H & I)]; [discriminate|]. injection H as ->. exact (U k I). }
  assert (NL : forall x, In x (p ++ a :: b :: q) -> x <> Node n) by (intros x; rewrite <- E; apply NR).
  assert (Na : a <> Node n) by (apply NL; apply in_app_iff; right; now left).
  assert (Nb : b <> Node n) by (apply NL; apply in_app_iff; right; right; now left).
  constructor.
  - intro k. destruct (Nat.eq_dec k l) as [->|N]; [now rewrite set_same|rewrite set_other by auto; apply (rN _ _ R)].
  - intro k. destruct (Nat.eq_dec k l) as [->|N].
    + rewrite set_same, E'. pose proof (rC _ _ R l) as C. rewrite E, chain_app, chain_cons2 in C. destruct C as (C1 & C2 & C3 & C4).
      rewrite chain_app, !chain_cons2. unfold ins_at. split; [|split; [|split; [|split; [|split]]]]; cbn [nx pv].
      * apply chain_frame with h; auto; cbn [nx pv]; intros x Hx.
        -- rewrite removelast_app1 in Hx. rewrite !put_other; auto; [apply NL; apply in_app_iff; auto|congruence].
        -- rewrite !put_other; auto; [|congruence]. apply NL. apply in_tl in Hx. apply in_app_iff in Hx. apply in_app_iff. cbn [In] in *. tauto.
      * now rewrite put_same.
      * rewrite put_other by auto. now rewrite put_same.
      * rewrite put_other by auto. now rewrite put_same.
      * now rewrite put_same.
      * apply chain_frame with h; auto; cbn [nx pv]; intros x Hx.
        -- rewrite !put_other; auto; [|congruence]. apply NL. apply in_rl in Hx. apply in_app_iff. right; now right.
        -- cbn [tl] in Hx. rewrite !put_other; auto; [|congruence]. apply NL. apply in_app_iff. right; right; now right.
    + rewrite set_other by auto. apply chain_frame with h; [| |apply (rC _ _ R)]; cbn [ins_at nx pv]; intros x Hx.
      * apply in_rl in Hx. destruct (other_ring h L l k p a b q R E N x Hx). rewrite !put_other; auto. now apply NR with k.
      * apply in_tl in Hx. destruct (other_ring h L l k p a b q R E N x Hx). rewrite !put_other; auto. now apply NR with k.
  - intros i j x Hi Hj. destruct (Nat.eq_dec i l) as [->|Ni], (Nat.eq_dec j l) as [->|Nj]; auto; rewrite ?set_same, ?set_other in * by auto.
    + apply IN in Hi as [->|Hi]; [destruct (U j Hj)|eapply (rD _ _ R); eauto].
    + apply IN in Hj as [->|Hj]; [destruct (U i Hi)|eapply (rD _ _ R); eauto].
    + eapply (rD _ _ R); eauto.
  - intros x Ux. assert (x <> n). { intros ->. apply (Ux l). rewrite set_same. apply IN; auto. }
    assert (Ux' : unlisted L x). { intros k Hk. apply (Ux k). destruct (Nat.eq_dec k l) as [->|N]; [rewrite set_same; apply IN; auto|now rewrite set_other]. }
    assert (NX : forall y, In y (p ++ a :: b :: q) -> Node x <> y). { rewrite <- E. intros y Hy <-. apply ring_in in Hy as [Hy|(m & Hy & I)]; [discriminate|]. injection Hy as <-. exact (Ux' l I). }
    assert (Node x <> a) by (apply NX; apply in_app_iff; right; now left). assert (Node x <> b) by (apply NX; apply in_app_iff; right; right; now left).
    cbn [ins_at nx pv]. rewrite !put_other by congruence. now apply (rU _ _ R).
Qed.
Lemma rep_remove h L l p a b q n xs' : Rep h L -> ring l (L l) = p ++ a :: Node n :: b :: q -> ring l xs' = p ++ a :: b :: q ->
  (forall x, In x xs' <-> x <> n /\ In x (L l)) -> NoDup xs' -> Rep (rem_at h a b n) (set L l xs').
Proof.
  intros R E E' IN ND.
  destruct (ring_split l (L l) p a (Node n) (b :: q) (rN _ _ R l) E) as (S1 & S2 & S3 & S4).
  destruct (ring_split l (L l) (p ++ [a]) (Node n) b q (rN _ _ R l)) as (T1 & T2 & T3 & T4); [now rewrite <- app_assoc|].
  assert (Na : a <> Node n) by (intros ->; apply T1; apply in_app_iff; right; now left).
  assert (Nb : b <> Node n) by (intros ->; apply S4; now left).
  destruct (ring_split l xs' p a b q ND E') as (V1 & V2 & V3 & V4).
  constructor.
  - intro k. destruct (Nat.eq_dec k l) as [->|N]; [now rewrite set_same|rewrite set_other by auto; apply (rN _ _ R)].
  - intro k. destruct (Nat.eq_dec k l) as [->|N].
    + rewrite set_same, E'. pose proof (rC _ _ R l) as C. rewrite E, chain_app, !chain_cons2 in C. destruct C as (C1 & C2 & C3 & C4 & C5 & C6).
      rewrite chain_app, chain_cons2. unfold rem_at. split; [|split; [|split]]; cbn [nx pv].
      * apply chain_frame with h; auto; cbn [nx pv]; intros x Hx.
        -- rewrite removelast_app1 in Hx. rewrite !put_other; auto; [congruence|]. intros ->. apply T1. apply in_app_iff; auto.
        -- rewrite !put_other; auto; [congruence|]. intros ->. apply T1. now apply in_tl.
      * rewrite put_other by auto. now rewrite put_same.
      * rewrite put_other by auto. now rewrite put_same.
      * apply chain_frame with h; auto; cbn [nx pv]; intros x Hx.
        -- rewrite !put_other; auto; [congruence|]. intros ->. apply S4. now apply in_rl.
        -- cbn [tl] in Hx. rewrite !put_other; auto; [congruence|]. intros ->. apply S4. now right.
    + rewrite set_other by auto. assert (E2 : ring l (L l) = (p ++ [a]) ++ Node n :: b :: q) by now rewrite <- app_assoc.
      apply chain_frame with h; [| |apply (rC _ _ R)]; cbn [rem_at nx pv]; intros x Hx; [apply in_rl in Hx|apply in_tl in Hx];
      destruct (other_ring h L l k _ _ _ _ R E N x Hx); destruct (other_ring h L l k _ _ _ _ R E2 N x Hx); now rewrite !put_other.
  - intros i j x Hi Hj. destruct (Nat.eq_dec i l) as [->|Ni], (Nat.eq_dec j l) as [->|Nj]; auto; rewrite ?set_same, ?set_other in * by auto.
    + apply IN in Hi as [_ Hi]. eapply (rD _ _ R); eauto.
    + apply IN in Hj as [_ Hj]. eapply (rD _ _ R); eauto.
    + eapply (rD _ _ R); eauto.
  - intros x Ux. cbn [rem_at nx pv]. destruct (Nat.eq_dec x n) as [->|Nx]; [now rewrite !put_same|].
    assert (Ux' : unlisted L x). { intros k Hk. apply (Ux k). destruct (Nat.eq_dec k l) as [->|N]; [rewrite set_same; apply IN; auto|now rewrite set_other]. }
    assert (NX : forall y, In y (ring l (L l)) -> Node x <> y). { intros y Hy <-. apply ring_in in Hy as [Hy|(m & Hy & I)]; [discriminate|]. injection Hy as <-. exact (Ux' l I). }
    assert (Node x <> a) by (apply NX; rewrite E; apply in_app_iff; right; now left). assert (Node x <> b) by (apply NX; rewrite E; apply in_app_iff; right; right; right; now left).
    rewrite !put_other by congruence. now apply (rU _ _ R).
Qed.
(** neighbours *)
Lemma rep_link h L l p a b q : Rep h L -> ring l (L l) = p ++ a :: b :: q -> nx h a = Some b /\ pv h b = Some a.
Proof. intros R E. pose proof (rC _ _ R l) as C. rewrite E, chain_app, chain_cons2 in C. tauto. Qed.
Lemma ring_first l xs : exists b q, ring l xs = [] ++ Orig l :: b :: q /\ elem (Some b) = hd_error xs.
Proof. destruct xs as [|x xs]; [exists (Orig l), []|exists (Node x), (map Node xs ++ [Orig l])]; split; reflexivity. Qed.
Lemma ring_last l xs : exists p a, ring l xs = p ++ a :: Orig l :: [] /\ elem (Some a) = hd_error (rev xs).
Proof.
  destruct xs as [|x xs] using rev_ind; [exists [], (Orig l); split; reflexivity|]. exists (Orig l :: map Node xs), (Node x). rewrite rev_unit. split; [|reflexivity]. unfold ring. rewrite map_app, <- app_assoc. reflexivity.
Qed.
Lemma ring_next l u x v : exists p b q, ring l (u ++ x :: v) = p ++ Node x :: b :: q /\ elem (Some b) = hd_error v /\ p = Orig l :: map Node u /\ b :: q = map Node v ++ [Orig l].
Proof.
  unfold ring. rewrite map_app. cbn [map]. rewrite <- app_assoc. cbn [app]. destruct v as [|y v].
  - exists (Orig l :: map Node u), (Orig l), []. auto.
  - exists (Orig l :: map Node u), (Node y), (map Node v ++ [Orig l]). auto.
Qed.
Lemma ring_prev l u x v : exists p a, ring l (u ++ x :: v) = p ++ a :: Node x :: (map Node v ++ [Orig l]) /\ elem (Some a) = hd_error (rev u) /\ p ++ [a] = Orig l :: map Node u.
Proof.
  unfold ring. rewrite map_app. cbn [map]. rewrite <- app_assoc. cbn [app]. destruct u as [|y u] using rev_ind.
  - exists [], (Orig l). auto.
  - exists (Orig l :: map Node u), (Node y). rewrite rev_unit, map_app, <- app_assoc. auto.
Qed.
Lemma in_mid {A} (x n a : A) u v : In x (u ++ n :: a :: v) <-> x = n \/ In x (u ++ a :: v).
Proof. rewrite !in_app_iff. cbn [In]. intuition congruence. Qed.
Lemma nodup_mid_iff {A} (u : list A) n v : NoDup (u ++ v) -> ~ In n (u ++ v) -> NoDup (u ++ n :: v).
Proof. intros A1 B. apply NoDup_Add with (a := n) (l := u ++ v); [apply Add_app|auto]. Qed.
Lemma insert_before_at h L p n b : Rep h L -> unlisted L n -> pv h p = Some b -> insert_before h p n = Some (ins_at h b p n).
Proof. intros R U P. destruct (rU _ _ R n U) as [A B]. unfold insert_before. now rewrite A, B, P. Qed.
Lemma insert_after_at h L p n b : Rep h L -> unlisted L n -> nx h p = Some b -> insert_after h p n = Some (ins_at h p b n).
Proof. intros R U P. destruct (rU _ _ R n U) as [A B]. unfold insert_after. now rewrite A, B, P. Qed.

Lemma rep_ib h L l u x v n : Rep h L -> unlisted L n -> L l = u ++ x :: v -> exists h', insert_before h (Node x) n = Some h' /\ Rep h' (set L l (u ++ n :: x :: v)).
Proof.
  intros R U E. destruct (ring_prev l u x v) as (p & a & F & _ & G). rewrite <- E in F. destruct (rep_link h L l _ _ _ _ R F) as [_ P].
  exists (ins_at h a (Node x) n). split; [eapply insert_before_at; eauto|]. eapply rep_insert; [exact R|exact U|exact F| | |].
  - unfold ring. rewrite map_app. cbn [map]. rewrite <- app_assoc. cbn [app]. change (Orig l :: map Node u ++ Node n :: Node x :: map Node v ++ [Orig l]) with ((Orig l :: map Node u) ++ Node n :: Node x :: map Node v ++ [Orig l]). rewrite <- G, <- app_assoc. reflexivity.
  - intro y. rewrite in_mid, E. reflexivity.
  - pose proof (rN _ _ R l) as ND. rewrite E in ND. apply nodup_mid_iff; auto. rewrite <- E. apply U.
Qed.
Lemma rep_ibo h L l n : Rep h L -> unlisted L n -> exists h', insert_before h (Orig l) n = Some h' /\ Rep h' (set L l (L l ++ [n])).
Proof.
  intros R U. destruct (ring_last l (L l)) as (p & a & F & _). destruct (rep_link h L l _ _ _ _ R F) as [_ P].
  exists (ins_at h a (Orig l) n). split; [eapply insert_before_at; eauto|]. eapply rep_insert; [exact R|exact U|exact F| | |].
  - unfold ring in *. rewrite map_app, <- app_assoc. cbn [map app]. change (Orig l :: map Node (L l) ++ [Node n; Orig l]) with ((Orig l :: map Node (L l)) ++ [Node n; Orig l]).
    assert (G : Orig l :: map Node (L l) = p ++ [a]). { change (Orig l :: map Node (L l) ++ [Orig l]) with ((Orig l :: map Node (L l)) ++ [Orig l]) in F. replace (p ++ [a; Orig l]) with ((p ++ [a]) ++ [Orig l]) in F by now rewrite <- app_assoc. now apply app_inj_tail in F. }
    rewrite G, <- app_assoc. reflexivity.
  - intro y. rewrite in_app_iff. cbn [In]. intuition congruence.
  - apply nodup_mid_iff; rewrite app_nil_r; [apply (rN _ _ R)|apply U].
Qed.
Lemma rep_ia h L l u x v n : Rep h L -> unlisted L n -> L l = u ++ x :: v -> exists h', insert_after h (Node x) n = Some h' /\ Rep h' (set L l (u ++ x :: n :: v)).
Proof.
  intros R U E. destruct (ring_next l u x v) as (p & b & q & F & _ & Gp & G). rewrite <- E in F. destruct (rep_link h L l _ _ _ _ R F) as [P _].
  exists (ins_at h (Node x) b n). split; [eapply insert_after_at; eauto|]. eapply rep_insert; [exact R|exact U|exact F| | |].
  - unfold ring. rewrite map_app. cbn [map]. rewrite <- app_assoc. cbn [app]. rewrite G, Gp. reflexivity.
  - intro y. rewrite E, !in_app_iff. cbn [In]. intuition congruence.
  - pose proof (rN _ _ R l) as ND. rewrite E in ND. replace (u ++ x :: n :: v) with ((u ++ [x]) ++ n :: v) by now rewrite <- app_assoc. apply nodup_mid_iff; rewrite <- app_assoc; auto. cbn [app]. rewrite <- E. apply U.
Qed.
Lemma rep_iao h L l n : Rep h L -> unlisted L n -> exists h', insert_after h (Orig l) n = Some h' /\ Rep h' (set L l (n :: L l)).
Proof.
  intros R U. destruct (ring_first l (L l)) as (b & q & F & _). destruct (rep_link h L l _ _ _ _ R F) as [P _].
  exists (ins_at h (Orig l) b n). split; [eapply insert_after_at; eauto|]. eapply rep_insert; [exact R|exact U|exact F| | |].
  - unfold ring in *. cbn [map app] in *. injection F as F. now rewrite F.
  - intro y. cbn [In]. intuition congruence.
  - constructor; [apply U|apply (rN _ _ R)].
Qed.
Lemma rep_rm h L l u x v : Rep h L -> L l = u ++ x :: v -> exists h', remove h x = Some h' /\ Rep h' (set L l (u ++ v)).
Proof.
  intros R E. destruct (ring_prev l u x v) as (p & a & F & _ & G). rewrite <- E in F. destruct (rep_link h L l _ _ _ _ R F) as [_ P].
  destruct (ring_next l u x v) as (p' & b & q & F' & _ & Gp & G'). rewrite <- E in F'. destruct (rep_link h L l _ _ _ _ R F') as [Q _].
  exists (rem_at h a b x). split; [unfold remove; now rewrite P, Q|]. rewrite <- G' in F.
  pose proof (rN _ _ R l) as ND. rewrite E in ND. eapply rep_remove; [exact R|exact F| | |].
  - unfold ring. rewrite map_app, <- app_assoc, <- G'. change (Orig l :: map Node u ++ b :: q) with ((Orig l :: map Node u) ++ b :: q). rewrite <- G, <- app_assoc. reflexivity.
  - intro y. rewrite E. apply nodup_mid in ND. rewrite !in_app_iff. cbn [In]. destruct ND. split; [intros [H1|H1]; split; auto; congruence|]. intros [H1 [H2|[H2|H2]]]; auto; congruence.
  - now apply NoDup_remove_1 in ND.
Qed.
Lemma rep_first h L l : Rep h L -> first h l = hd_error (L l).
Proof. intro R. destruct (ring_first l (L l)) as (b & q & F & G). destruct (rep_link h L l _ _ _ _ R F) as [P _]. unfold first. now rewrite P. Qed.
Lemma rep_last h L l : Rep h L -> last h l = hd_error (rev (L l)).
Proof. intro R. destruct (ring_last l (L l)) as (p & a & F & G). destruct (rep_link h L l _ _ _ _ R F) as [_ P]. unfold last. now rewrite P. Qed.
Lemma rep_adv h L l u x v : Rep h L -> L l = u ++ x :: v -> advance h (Node x) = (Some (match v with y :: _ => Node y | [] => Orig l end), match v with [] => false | _ => true end).
Proof.
  intros R E. destruct (ring_next l u x v) as (p & b & q & F & _ & _ & G). rewrite <- E in F. destruct (rep_link h L l _ _ _ _ R F) as [P _]. unfold advance. rewrite P. destruct v as [|y v]; cbn [map app] in G; injection G as -> _; reflexivity.
Qed.
Lemma rep_rec h L l u x v : Rep h L -> L l = u ++ x :: v -> recede h (Node x) = (Some (match rev u with y :: _ => Node y | [] => Orig l end), match rev u with [] => false | _ => true end).
Proof.
  intros R E. destruct (ring_prev l u x v) as (p & a & F & _ & G). rewrite <- E in F. destruct (rep_link h L l _ _ _ _ R F) as [_ P]. unfold recede. rewrite P. destruct u as [|y u] using rev_ind.
  - cbn [map] in G. destruct p as [|? [|? ?]]; cbn [app] in G; try discriminate. injection G as ->. reflexivity.
  - rewrite rev_unit. rewrite map_app in G. change (Orig l :: map Node u ++ map Node [y]) with ((Orig l :: map Node u) ++ [Node y]) in G. apply app_inj_tail in G as [_ ->]. reflexivity.
Qed.
Theorem simulation h L o L' r : Rep h L -> spec L o L' r -> exists h', exec h o = Some (h', r) /\ Rep h' L'.
Proof.
  intros R Sp. destruct Sp; cbn [exec].
  - destruct (rep_ib h L l u x v n) as (h' & A & B); auto. rewrite A. exists h'; auto.
  - destruct (rep_ibo h L l n) as (h' & A & B); auto. rewrite A. exists h'; auto.
  - destruct (rep_ia h L l u x v n) as (h' & A & B); auto. rewrite A. exists h'; auto.
  - destruct (rep_iao h L l n) as (h' & A & B); auto. rewrite A. exists h'; auto.
  - destruct (rep_rm h L l u x v) as (h' & A & B); auto. rewrite A. exists h'; auto.
  - unfold insert_first. destruct (rep_iao h L l n) as (h' & A & B); auto. rewrite A. exists h'; auto.
  - unfold insert_last. destruct (rep_ibo h L l n) as (h' & A & B); auto. rewrite A. exists h'; auto.
  - unfold remove_first. rewrite (rep_first h L l R), H. cbn [hd_error]. destruct (rep_rm h L l [] x v) as (h' & A & B); auto. rewrite A. exists h'; auto.
  - unfold remove_first. rewrite (rep_first h L l R), H. exists h; auto.
  - unfold remove_last. rewrite (rep_last h L l R), H, rev_unit. cbn [hd_error]. destruct (rep_rm h L l u x []) as (h' & A & B); auto. rewrite A. rewrite app_nil_r in B. exists h'; auto.
  - unfold remove_last. rewrite (rep_last h L l R), H. exists h; auto.
  - rewrite (rep_first h L l R). exists h; auto.
  - rewrite (rep_last h L l R). exists h; auto.
  - unfold empty. rewrite (rep_first h L l R). exists h. split; auto. now destruct (L l).
  - apply in_split in H as (u & v & E). exists h. split; auto. unfold listed. destruct (ring_prev l u n v) as (p & a & F & _). rewrite <- E in F. destruct (rep_link h L l _ _ _ _ R F) as [_ P]. now rewrite P.
  - exists h. split; auto. unfold listed. destruct (rU _ _ R n H) as [-> ->]. reflexivity.
  - exists h. split; auto. unfold next. rewrite (rep_adv h L l u x v R H). cbn [fst snd]. now destruct v.
  - exists h. split; auto. unfold next, advance. destruct (rU _ _ R x H) as [-> _]. reflexivity.
  - exists h. split; auto. unfold prev. rewrite (rep_rec h L l u x v R H). cbn [fst snd]. now destruct (rev u).
  - exists h. split; auto. unfold prev, recede. destruct (rU _ _ R x H) as [_ ->]. reflexivity.
Qed.
Lemma walk_fwd h L l : Rep h L -> forall v u x k, L l = u ++ x :: v -> length v < k -> walk advance h (Node x) k = (v, true).
Proof.
  intros R. induction v as [|y v IH]; intros u x k E K; (destruct k as [|k]; [cbn [length] in *; lia|]); cbn [walk]; rewrite (rep_adv h L l u x _ R E); auto.
  rewrite (IH (u ++ [x]) y k); auto; [now rewrite <- app_assoc|cbn [length] in *; lia].
Qed.
Lemma walk_all h L l k : Rep h L -> length (L l) < k -> walk advance h (Orig l) k = (L l, true).
Proof.
  intros R K. destruct k as [|k]; [lia|]. cbn [walk]. destruct (ring_first l (L l)) as (b & q & F & G). destruct (rep_link h L l _ _ _ _ R F) as [P _].
  unfold advance at 1. rewrite P. destruct (L l) as [|x xs] eqn:E; cbn [elem hd_error] in G; destruct b; try discriminate; auto. injection G as ->.
  rewrite (walk_fwd h L l R xs [] x k); auto. cbn [length] in *; lia.
Qed.
Lemma walk_bwd h L l : Rep h L -> forall u v x k, L l = rev u ++ x :: v -> length u < k -> walk recede h (Node x) k = (u, true).
Proof.
  intros R. induction u as [|y u IH]; intros v x k E K; (destruct k as [|k]; [cbn [length] in *; lia|]); cbn [walk]; rewrite (rep_rec h L l _ x v R E), rev_involutive; auto.
  rewrite (IH (x :: v) y k); auto; [cbn [rev] in E; now rewrite <- app_assoc in E|cbn [length] in *; lia].
Qed.
Lemma walk_all_rev h L l k : Rep h L -> length (L l) < k -> walk recede h (Orig l) k = (rev (L l), true).
Proof.
  intros R K. destruct k as [|k]; [lia|]. cbn [walk]. destruct (ring_last l (L l)) as (p & a & F & G). destruct (rep_link h L l _ _ _ _ R F) as [_ P].
  unfold recede at 1. rewrite P. destruct (rev (L l)) as [|x xs] eqn:E; cbn [elem hd_error] in G; destruct a; try discriminate; auto. injection G as ->.
  assert (E' : L l = rev xs ++ x :: []) by (rewrite <- (rev_involutive (L l)), E; reflexivity).
  rewrite (walk_bwd h L l R xs [] x k); auto. rewrite E', app_length, rev_length in K. cbn [length] in K. lia.
Qed.
