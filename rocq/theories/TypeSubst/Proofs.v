From Coq Require Import List Bool Arith Lia.
From Verif.TypeSubst Require Import Model Spec.
Import ListNotations.
Lemma is_var_spec : forall t k, is_var t k = true <-> exists q, t = Var q k.
Proof.
  intros [q j|q c l|q vs l] k; cbn [is_var]; split; intros H; try discriminate; try (destruct H; discriminate).
  - apply Nat.eqb_eq in H. subst. eauto.
  - destruct H as [p E]. injection E as _ ->. apply Nat.eqb_refl.
Qed.
Lemma bound_iff : forall m v r, bound m v r <-> find m v = Some r /\ is_var r v = false.
Proof.
  intros m v r. unfold bound. split; intros [A B]; split; auto.
  - destruct (is_var r v) eqn:E; auto. apply is_var_spec in E. destruct E as [q E]. elim (B q E).
  - intros q ->. cbn [is_var] in B. rewrite Nat.eqb_refl in B. discriminate.
Qed.
Lemma bound_fun : forall m v r s, bound m v r -> bound m v s -> r = s.
Proof. intros m v r s [A _] [B _]. congruence. Qed.
Lemma ty_ind' : forall P : ty -> Prop, (forall q k, P (Var q k)) -> (forall q c l, Forall P l -> P (Con q c l)) -> (forall q vs l, Forall P l -> P (Fun q vs l)) -> forall t, P t.
Proof.
  intros P A B C. fix F 1. intros [q k|q c l|q vs l]; [apply A|apply B|apply C]; induction l; constructor; auto.
Qed.
(** the chain of lookup *)
Ltac nv := try match goal with H : forall q a, ?t <> Var q a, A : find ?m ?k = Some ?t, B : find ?m ?k = Some (Var ?q ?a) |- _ => exfalso; apply (H q a); congruence end.
Lemma follow_mono : forall f f' m k t r, follow f m k t = Some r -> f <= f' -> follow f' m k t = Some r.
Proof.
  induction f; intros f' m k t r H L; [discriminate|]. destruct f'; [lia|]. cbn [follow] in *. destruct t; auto. destruct (Nat.eqb k k0); auto. destruct (find m k0); auto. apply IHf; auto. lia.
Qed.
Lemma lookup_mono : forall f f' m k r, lookup f m k = Some r -> f <= f' -> lookup f' m k = Some r.
Proof.
  intros f f' m k r H L. unfold lookup in *. destruct (find m k); auto. destruct (follow f m k t) eqn:E; [|discriminate]. rewrite (follow_mono _ _ _ _ _ _ E L). auto.
Qed.
Lemma follow_end : forall m k a t, chain_end m a t -> forall r, find m a = Some r -> (forall q, ~ chain_back m k a q) -> exists f, follow f m k r = Some t.
Proof.
  intros m k a t H. induction H as [a t A B|a q b A B|a q b t A B IH]; intros r R Q; rewrite A in R; injection R as <-.
  - exists 1. cbn [follow]. destruct t; auto. elim (B q k0); auto.
  - exists 1. cbn [follow]. rewrite B. destruct (Nat.eqb k b); auto.
  - destruct (Nat.eqb k b) eqn:E.
    + exfalso. apply Nat.eqb_eq in E. subst b. apply (Q q). constructor. auto.
    + assert (F : exists r', find m b = Some r') by (inversion B; eauto). destruct F as [r' F]. destruct (IH r' F) as [f G].
      { intros p P. apply (Q p). eapply B_step; eauto. intros ->. rewrite Nat.eqb_refl in E. discriminate. }
      exists (S f). cbn [follow]. rewrite E, F. auto.
Qed.
(** a chain that ends has a length, so it does not come back *)
Inductive len (m : map_) : nat -> nat -> Prop :=
  | L_type k t : find m k = Some t -> (forall q a, t <> Var q a) -> len m k 0
  | L_open k q a : find m k = Some (Var q a) -> find m a = None -> len m k 0
  | L_step k q a n : find m k = Some (Var q a) -> len m a n -> len m k (S n).
Lemma end_len : forall m k t, chain_end m k t -> exists n, len m k n.
Proof.
  induction 1 as [k t A B|k q a A B|k q a t A B [n IH]]; eauto using len.
Qed.
Lemma len_fun : forall m k n, len m k n -> forall p, len m k p -> n = p.
Proof.
  induction 1 as [k t A B|k q a A B|k q a n A B IH]; intros p P; inversion P; subst; auto; nv.
  - exfalso. assert (E : Var q0 a0 = Var q a) by congruence. injection E as -> ->. inversion H0; congruence.
  - exfalso. assert (E : Var q0 a0 = Var q a) by congruence. injection E as -> ->. inversion B; congruence.
  - assert (E : Var q0 a0 = Var q a) by congruence. injection E as -> ->. f_equal. auto.
Qed.
Lemma back_len : forall m b k q, chain_back m b k q -> forall n, len m k n -> find m b <> None -> exists p, p < n /\ len m b p.
Proof.
  induction 1 as [k q A|k q a p A N B IH]; intros n L F; inversion L; subst; nv.
  - assert (E : Var q0 a = Var q b) by congruence. injection E as -> ->. congruence.
  - assert (E : Var q0 a = Var q b) by congruence. injection E as -> ->. eauto.
  - exfalso. assert (E : Var q0 a0 = Var q a) by congruence. injection E as -> ->. inversion B; congruence.
  - assert (E : Var q0 a0 = Var q a) by congruence. injection E as -> ->. destruct (IH _ H0 F) as (x & X & Y). exists x. split; auto.
Qed.
Lemma no_return : forall m k t q, chain_end m k t -> ~ chain_back m k k q.
Proof.
  intros m k t q E B. destruct (end_len _ _ _ E) as [n L]. assert (F : find m k <> None) by (inversion E; congruence). destruct (back_len _ _ _ _ B _ L F) as (p & P & Q). rewrite (len_fun _ _ _ L _ Q) in P. lia.
Qed.
Lemma follow_back : forall m k a q, chain_back m k a q -> forall r, find m a = Some r -> exists f, follow f m k r = Some (Var q k).
Proof.
  induction 1 as [a q A|a q b p A N B IH]; intros r R; rewrite A in R; injection R as <-.
  - exists 1. cbn [follow]. rewrite Nat.eqb_refl. auto.
  - assert (F : exists r', find m b = Some r') by (inversion B; eauto). destruct F as [r' F]. destruct (IH r' F) as [f G]. exists (S f). cbn [follow]. destruct (Nat.eqb k b) eqn:E; [apply Nat.eqb_eq in E; congruence|]. rewrite F. auto.
Qed.
Lemma follow_only : forall f m k a r t, find m a = Some r -> follow f m k r = Some t -> chain_end m a t \/ (exists q, t = Var q k /\ chain_back m k a q).
Proof.
  induction f; intros m k a r t A H; [discriminate|]. cbn [follow] in H. destruct r as [q b| |]; try (injection H as <-; left; apply E_type; auto; discriminate).
  destruct (Nat.eqb k b) eqn:E.
  - apply Nat.eqb_eq in E. subst b. injection H as <-. right. exists q. split; auto. constructor. auto.
  - destruct (find m b) eqn:F.
    + destruct (IHf _ _ _ _ _ F H) as [C|(p & -> & C)]; [left; eapply E_step; eauto|]. right. exists p. split; auto. eapply B_step; eauto. intros ->. rewrite Nat.eqb_refl in E. discriminate.
    + injection H as <-. left. apply E_open; auto.
Qed.
(** the visitor *)
Lemma walk_mono : forall (g h : ty -> option (ty * nat)) l r, (forall t x, In t l -> g t = Some x -> h t = Some x) -> walk g l = Some r -> walk h l = Some r.
Proof.
  induction l; intros r H W; auto. cbn [walk] in *. destruct (g a) as [[t n]|] eqn:G; [|discriminate]. rewrite (H a _ (or_introl eq_refl) G). destruct (walk g l) as [[l' n']|] eqn:V; [|discriminate]. rewrite (IHl (l', n')); auto. intros. apply H; auto. right. auto.
Qed.
Lemma walk_ext : forall (g h : ty -> option (ty * nat)) l, (forall t, In t l -> g t = h t) -> walk g l = walk h l.
Proof.
  induction l; intros H; auto. cbn [walk]. rewrite (H a) by (left; auto). rewrite IHl; auto. intros. apply H. right. auto.
Qed.
Lemma visit_mono : forall f f' m free bv t x, visit f m free bv t = Some x -> f <= f' -> visit f' m free bv t = Some x.
Proof.
  induction f; intros f' m free bv t x H L; [discriminate|]. destruct f'; [lia|]. cbn [visit] in *. destruct t as [q k|q c l|q vs l].
  - destruct (mem k bv); auto. destruct (find m k); auto. destruct (is_var t k); auto. destruct (visit f m free bv (addq q t)) as [[t' n]|] eqn:E; [|discriminate]. rewrite (IHf f' _ _ _ _ _ E) by lia. auto.
  - destruct (walk (visit f m free bv) l) eqn:E; [|discriminate]. rewrite (walk_mono _ (visit f' m free bv) _ _ (fun t x _ K => IHf f' m free bv t x K ltac:(lia)) E). auto.
  - set (bv' := if free then vs ++ bv else bv) in *. destruct (walk (visit f m free bv') l) eqn:E; [|discriminate]. rewrite (walk_mono _ (visit f' m free bv') _ _ (fun t x _ K => IHf f' m free bv' t x K ltac:(lia)) E). auto.
Qed.
Lemma walk_visit_mono : forall f f' m free bv l r, walk (visit f m free bv) l = Some r -> f <= f' -> walk (visit f' m free bv) l = Some r.
Proof. intros f f' m free bv l r H L. eapply walk_mono; [|exact H]. intros t x _ K. eapply visit_mono; eauto. Qed.
Lemma walk_total : forall m free bv l, Forall (fun t => exists f x, visit f m free bv t = Some x) l -> exists f y, walk (visit f m free bv) l = Some y.
Proof.
  induction 1 as [|t l (f & [t' n] & H) _ (g & [l' n'] & G)]; [exists 0, ([], 0); auto|]. exists (Nat.max f g), (t' :: l', n + n'). cbn [walk]. rewrite (visit_mono f (Nat.max f g) _ _ _ _ _ H) by lia. rewrite (walk_visit_mono g (Nat.max f g) _ _ _ _ _ G) by lia. auto.
Qed.
Lemma occurs_addq : forall v q t, occurs v (addq q t) <-> occurs v t.
Proof. intros v q [p k|p c l|p vs l]; cbn [addq]; split; intros H; inversion H; subst; econstructor; eauto. Qed.
Lemma visit_total_rank : forall m rank, (forall v r w s, bound m v r -> occurs w r -> bound m w s -> rank w < rank v) ->
  forall N free t bv, (forall v r, occurs v t -> bound m v r -> rank v < N) -> exists f x, visit f m free bv t = Some x.
Proof.
  intros m rank R. induction N as [N IH] using lt_wf_ind. intros free. induction t as [q k|q c l IHl|q vs l IHl] using ty_ind'; intros bv B.
  - destruct (mem k bv) eqn:M; [exists 1, (Var q k, 0); cbn [visit]; rewrite M; auto|]. destruct (find m k) as [r|] eqn:F; [|exists 1, (Var q k, 0); cbn [visit]; rewrite M, F; auto].
    destruct (is_var r k) eqn:V; [exists 1, (Var q k, 0); cbn [visit]; rewrite M, F, V; auto|]. assert (K : bound m k r) by (apply bound_iff; auto).
    destruct (IH (rank k) (B _ _ (O_var k q) K) free (addq q r) bv) as (f & [t n] & E).
    { intros v s O S. apply occurs_addq in O. eauto. }
    exists (S f), (t, S n). cbn [visit]. rewrite M, F, V, E. auto.
  - destruct (walk_total m free bv l) as (f & [l' n] & E).
    { rewrite Forall_forall in *. intros t T. apply IHl; auto. intros v r O S. eapply B; eauto. econstructor; eauto. }
    exists (S f), (Con q c l', n). cbn [visit]. rewrite E. auto.
  - destruct (walk_total m free (if free then vs ++ bv else bv) l) as (f & [l' n] & E).
    { rewrite Forall_forall in *. intros t T. apply IHl; auto. intros v r O S. eapply B; eauto. econstructor; eauto. }
    exists (S f), (Fun q vs l', n). cbn [visit]. rewrite E. auto.
Qed.
Lemma max_occurs : forall m (rank : nat -> nat) t, exists N, forall v r, occurs v t -> bound m v r -> rank v < N.
Proof.
  intros m rank.
  assert (L : forall l, Forall (fun t => exists N, forall v r, occurs v t -> bound m v r -> rank v < N) l -> exists N, forall t v r, In t l -> occurs v t -> bound m v r -> rank v < N).
  { induction 1 as [|t l (N & A) _ (N' & B)]; [exists 0; contradiction|]. exists (Nat.max N N'). intros s v r [<-|I] O S; [specialize (A v r O S)|specialize (B s v r I O S)]; lia. }
  induction t as [q k|q c l IH|q vs l IH] using ty_ind'.
  - exists (S (rank k)). intros v r O _. inversion O. lia.
  - destruct (L _ IH) as (N & A). exists N. intros v r O S. inversion O; subst. eauto.
  - destruct (L _ IH) as (N & A). exists N. intros v r O S. inversion O; subst. eauto.
Qed.
Lemma visit_total : forall m free bv t, acyclic m -> exists f x, visit f m free bv t = Some x.
Proof. intros m free bv t (rank & R). destruct (max_occurs m rank t) as (N & B). eapply visit_total_rank; eauto. Qed.
(** results of the visitor, by induction over the components *)
Lemma walk_forall2 : forall g l l' n, walk g l = Some (l', n) -> Forall2 (fun t t' => exists c, g t = Some (t', c)) l l'.
Proof.
  induction l; cbn [walk]; intros l' n H; [injection H as <- _; constructor|]. destruct (g a) as [[t c]|] eqn:E; [|discriminate]. destruct (walk g l) as [[r c']|]; [|discriminate]. injection H as <- _. constructor; eauto.
Qed.
Lemma forall2_walk : forall m free bv l l', Forall2 (fun t t' => exists f c, visit f m free bv t = Some (t', c)) l l' -> exists f n, walk (visit f m free bv) l = Some (l', n).
Proof.
  induction 1 as [|t t' l l' (f & c & H) _ (g & n & G)]; [exists 0, 0; auto|]. exists (Nat.max f g), (c + n). cbn [walk]. rewrite (visit_mono f (Nat.max f g) _ _ _ _ _ H) by lia. rewrite (walk_visit_mono g (Nat.max f g) _ _ _ _ _ G) by lia. auto.
Qed.
Lemma Forall2_In_r : forall (A B : Type) (R : A -> B -> Prop) l l' b, Forall2 R l l' -> In b l' -> exists a, In a l /\ R a b.
Proof. induction 1; intros K; [contradiction|]. destruct K as [<-|K]; [eexists; split; [left; eauto|auto]|]. destruct (IHForall2 K) as (a & I & J). exists a. split; auto. right. auto. Qed.
Lemma visit_solved : forall f m t t' n, visit f m false [] t = Some (t', n) -> solved m t'.
Proof.
  induction f; intros m t t' n H; [discriminate|]. cbn [visit] in H. destruct t as [q k|q c l|q vs l].
  - cbn [mem existsb] in H. destruct (find m k) as [r|] eqn:F.
    + destruct (is_var r k) eqn:V.
      * injection H as <- _. intros v s O B. inversion O; subst. apply bound_iff in B. destruct B as [B C]. rewrite F in B. injection B as <-. congruence.
      * destruct (visit f m false [] (addq q r)) as [[u c]|] eqn:E; [|discriminate]. injection H as <- _. eapply IHf; eauto.
    + injection H as <- _. intros v s O [B _]. inversion O; subst. congruence.
  - destruct (walk _ l) as [[l' c']|] eqn:W; [|discriminate]. injection H as <- _. apply walk_forall2 in W. intros v r O B. inversion O; subst. match goal with I : In _ l' |- _ => destruct (Forall2_In_r _ _ _ _ _ _ W I) as (a & _ & c1 & E) end. eapply IHf; eauto.
  - destruct (walk _ l) as [[l' c']|] eqn:W; [|discriminate]. injection H as <- _. apply walk_forall2 in W. intros v r O B. inversion O; subst. match goal with I : In _ l' |- _ => destruct (Forall2_In_r _ _ _ _ _ _ W I) as (a & _ & c1 & E) end. eapply IHf; eauto.
Qed.
Lemma visit_same : forall f m t t' n, visit f m false [] t = Some (t', n) -> same m t t'.
Proof.
  induction f; intros m t t' n H; [discriminate|]. cbn [visit] in H. destruct t as [q k|q c l|q vs l].
  - cbn [mem existsb] in H. destruct (find m k) as [r|] eqn:F; [|injection H as <- _; apply S_refl]. destruct (is_var r k) eqn:V; [injection H as <- _; apply S_refl|]. destruct (visit f m false [] (addq q r)) as [[u c]|] eqn:E; [|discriminate]. injection H as <- _.
    eapply S_trans; [apply S_bind; apply bound_iff; eauto|]. eapply IHf; eauto.
  - destruct (walk _ l) as [[l' c']|] eqn:W; [|discriminate]. injection H as <- _. apply walk_forall2 in W. apply S_con. induction W as [|x y l l' (c0 & A)]; constructor; eauto.
  - destruct (walk _ l) as [[l' c']|] eqn:W; [|discriminate]. injection H as <- _. apply walk_forall2 in W. apply S_fun. induction W as [|x y l l' (c0 & A)]; constructor; eauto.
Qed.
Definition res (m : map_) (t t' : ty) : Prop := exists f n, visit f m false [] t = Some (t', n).
Lemma res_fun : forall m t a b, res m t a -> res m t b -> a = b.
Proof.
  intros m t a b (f & n & A) (g & p & B). apply (visit_mono f (Nat.max f g)) in A; [|lia]. apply (visit_mono g (Nat.max f g)) in B; [|lia]. congruence.
Qed.
Lemma res_bind : forall m q v r t, bound m v r -> (res m (Var q v) t <-> res m (addq q r) t).
Proof.
  intros m q v r t B. apply bound_iff in B. destruct B as [F V]. split.
  - intros (f & n & H). destruct f; [discriminate|]. cbn [visit mem existsb] in H. rewrite F, V in H. destruct (visit f m false [] (addq q r)) as [[u c]|] eqn:E; [|discriminate]. injection H as -> _. exists f, c. auto.
  - intros (f & n & H). exists (S f), (S n). cbn [visit mem existsb]. rewrite F, V, H. auto.
Qed.
Lemma res_con : forall m q c l t, res m (Con q c l) t <-> exists l', t = Con q c l' /\ Forall2 (res m) l l'.
Proof.
  intros m q c l t. split.
  - intros (f & n & H). destruct f; [discriminate|]. cbn [visit] in H. destruct (walk _ l) as [[l' c']|] eqn:W; [|discriminate]. injection H as <- _. exists l'. split; auto. apply walk_forall2 in W. induction W as [|x y l l' (c0 & A)]; constructor; auto. exists f, c0. auto.
  - intros (l' & -> & W). apply forall2_walk in W. destruct W as (f & n & W). exists (S f), n. cbn [visit]. rewrite W. auto.
Qed.
Lemma res_funt : forall m q vs l t, res m (Fun q vs l) t <-> exists l', t = Fun q vs l' /\ Forall2 (res m) l l'.
Proof.
  intros m q c l t. split.
  - intros (f & n & H). destruct f; [discriminate|]. cbn [visit] in H. destruct (walk _ l) as [[l' c']|] eqn:W; [|discriminate]. injection H as <- _. exists l'. split; auto. apply walk_forall2 in W. induction W as [|x y l l' (c0 & A)]; constructor; auto. exists f, c0. auto.
  - intros (l' & -> & W). apply forall2_walk in W. destruct W as (f & n & W). exists (S f), n. cbn [visit]. rewrite W. auto.
Qed.
Lemma same_res : forall m a b, same m a b -> forall t, res m a t <-> res m b t.
Proof.
  intros m. fix F 3. intros a b H.
  assert (L : forall l l', Forall2 (same m) l l' -> forall r, Forall2 (res m) l r <-> Forall2 (res m) l' r).
  { fix G 3. intros l l' K. destruct K as [|x y l l' A B]; intros r; [reflexivity|]. split; intros Q; inversion Q; subst; constructor; try (apply (F _ _ A); assumption); apply (G _ _ B); assumption. }
  intros t. destruct H as [q v r B|t0|a b H|a b c H K|q c l l' H|q vs l l' H].
  - apply res_bind; auto.
  - reflexivity.
  - symmetry. apply F; auto.
  - transitivity (res m b t); apply F; auto.
  - rewrite !res_con. split; intros (l2 & -> & Q); exists l2; split; auto; apply (L _ _ H); auto.
  - rewrite !res_funt. split; intros (l2 & -> & Q); exists l2; split; auto; apply (L _ _ H); auto.
Qed.
(** visiting what is solved changes nothing and counts nothing *)
Lemma visit_id : forall m t, solved m t -> exists f, visit f m false [] t = Some (t, 0).
Proof.
  intros m. assert (L : forall l, Forall (fun t => exists f, visit f m false [] t = Some (t, 0)) l -> exists f, walk (visit f m false []) l = Some (l, 0)).
  { induction 1 as [|t l (f & A) _ (g & B)]; [exists 0; auto|]. exists (Nat.max f g). cbn [walk]. rewrite (visit_mono f (Nat.max f g) _ _ _ _ _ A) by lia. rewrite (walk_visit_mono g (Nat.max f g) _ _ _ _ _ B) by lia. auto. }
  induction t as [q k|q c l IH|q vs l IH] using ty_ind'; intros S.
  - exists 1. cbn [visit mem existsb]. destruct (find m k) as [r|] eqn:F; auto. destruct (is_var r k) eqn:V; auto. exfalso. eapply S; [constructor|]. apply bound_iff. eauto.
  - destruct (L l) as (f & W); [|exists (Datatypes.S f); cbn [visit]; rewrite W; auto]. rewrite Forall_forall in *. intros t T. apply IH; auto. intros v r O. apply S. econstructor; eauto.
  - destruct (L l) as (f & W); [|exists (Datatypes.S f); cbn [visit]; rewrite W; auto]. rewrite Forall_forall in *. intros t T. apply IH; auto. intros v r O. apply S. econstructor; eauto.
Qed.
Lemma solved_res : forall m t, solved m t -> res m t t.
Proof. intros m t S. destruct (visit_id m t S) as (f & H). exists f, 0. auto. Qed.
(** without binders freeOnly makes no difference *)
Lemma visit_free : forall m, Forall (fun e => mono (snd e)) m -> forall f bv t, mono t -> visit f m true bv t = visit f m false bv t.
Proof.
  intros m M. assert (F : forall k r, find m k = Some r -> mono r).
  { clear - M. induction M as [|[j s] m A B IH]; cbn [find]; intros k r H; [discriminate|]. destruct (Nat.eqb j k); [injection H as <-; auto|eauto]. }
  induction f; intros bv t T; auto. cbn [visit]. destruct t as [q k|q c l|q vs l].
  - destruct (mem k bv); auto. destruct (find m k) as [r|] eqn:E; auto. destruct (is_var r k); auto. rewrite IHf; auto. specialize (F _ _ E). destruct r; cbn [addq]; inversion F; subst; constructor; auto.
  - inversion T; subst. rewrite (walk_ext _ (visit f m false bv)); auto. intros t I. apply IHf. rewrite Forall_forall in *. auto.
  - inversion T; subst. cbn [app]. rewrite (walk_ext _ (visit f m false bv)); auto. intros t I. apply IHf. rewrite Forall_forall in *. auto.
Qed.
Lemma mono_addq : forall q t, mono t -> mono (addq q t).
Proof. intros q [p k|p c l|p vs l] H; inversion H; subst; cbn [addq]; constructor; auto. Qed.
Lemma visit_monot : forall m, Forall (fun e => mono (snd e)) m -> forall f free bv t t' n, mono t -> visit f m free bv t = Some (t', n) -> mono t'.
Proof.
  intros m M. assert (F : forall k r, find m k = Some r -> mono r).
  { clear - M. induction M as [|[j s] m A B IH]; cbn [find]; intros k r H; [discriminate|]. destruct (Nat.eqb j k); [injection H as <-; auto|eauto]. }
  induction f; intros free bv t t' n T H; [discriminate|]. cbn [visit] in H. destruct t as [q k|q c l|q vs l].
  - destruct (mem k bv); [injection H as <- _; auto|]. destruct (find m k) as [r|] eqn:E; [|injection H as <- _; auto]. destruct (is_var r k); [injection H as <- _; auto|]. destruct (visit f m free bv (addq q r)) as [[u c]|] eqn:V; [|discriminate]. injection H as <- _. eapply IHf; [|eauto]. apply mono_addq. eauto.
  - destruct (walk _ l) as [[l' c']|] eqn:W; [|discriminate]. injection H as <- _. apply walk_forall2 in W. inversion T as [|q0 c0 l0 T1|]; subst. constructor. clear - W T1 IHf. induction W as [|x y l l' (c0 & A)]; inversion T1; subst; constructor; eauto.
  - destruct (walk _ l) as [[l' c']|] eqn:W; [|discriminate]. injection H as <- _. apply walk_forall2 in W. inversion T as [| |q0 l0 T1]; subst. constructor. clear - W T1 IHf. induction W as [|x y l l' (c0 & A)]; inversion T1; subst; constructor; eauto.
Qed.
(** maps *)
Lemma find_add : forall m k t j, find (add m k t) j = if Nat.eqb k j then Some t else find m j.
Proof.
  induction m as [|[i r] m IH]; intros k t j; cbn [add find]; auto. destruct (Nat.eqb i k) eqn:E; cbn [find].
  - apply Nat.eqb_eq in E. subst i. destruct (Nat.eqb k j); auto.
  - destruct (Nat.eqb i j) eqn:D; auto. apply Nat.eqb_eq in D. subst i. rewrite Nat.eqb_sym, E. auto.
Qed.
Lemma keys_add : forall m k t, In k (map fst m) -> map fst (add m k t) = map fst m.
Proof.
  induction m as [|[i r] m IH]; intros k t H; [contradiction|]. cbn [add map fst]. destruct (Nat.eqb i k) eqn:E; cbn [map fst]; auto. f_equal. apply IH. destruct H as [H|H]; auto. cbn in H. subst. rewrite Nat.eqb_refl in E. discriminate.
Qed.
Lemma nth_add : forall m k t i, NoDup (map fst m) -> nth_error (map fst m) i = Some k -> nth_error (add m k t) i = Some (k, t) /\ forall j, j <> i -> nth_error (add m k t) j = nth_error m j.
Proof.
  induction m as [|[a r] m IH]; intros k t i N H; [destruct i; discriminate|]. cbn [map fst] in *. inversion N; subst. destruct i as [|i]; cbn [nth_error] in H; cbn [add].
  - injection H as ->. rewrite Nat.eqb_refl. split; auto. intros [|j] J; [lia|auto].
  - destruct (Nat.eqb a k) eqn:E.
    + apply Nat.eqb_eq in E. subst a. exfalso. apply H2. eapply nth_error_In; eauto.
    + destruct (IH k t i H3 H) as [A B]. split; auto. intros [|j] J; auto. apply B. lia.
Qed.
Lemma nth_find : forall m k r i, NoDup (map fst m) -> nth_error m i = Some (k, r) -> find m k = Some r.
Proof.
  induction m as [|[a s] m IH]; intros k r i N H; [destruct i; discriminate|]. cbn [map fst] in N. inversion N; subst. cbn [find]. destruct i as [|i]; cbn [nth_error] in H.
  - injection H as -> ->. rewrite Nat.eqb_refl. auto.
  - destruct (Nat.eqb a k) eqn:E; [|eauto]. apply Nat.eqb_eq in E. subst a. exfalso. apply H2. apply nth_error_In in H. apply in_map_iff. exists (k, r). auto.
Qed.
Lemma find_nth : forall m k r, find m k = Some r -> exists i, nth_error m i = Some (k, r).
Proof.
  induction m as [|[a s] m IH]; intros k r H; [discriminate|]. cbn [find] in H. destruct (Nat.eqb a k) eqn:E.
  - apply Nat.eqb_eq in E. injection H as <-. subst a. exists 0. auto.
  - destruct (IH _ _ H) as [i I]. exists (S i). auto.
Qed.
Lemma add_id : forall m k t, find m k = Some t -> add m k t = m.
Proof.
  induction m as [|[a s] m IH]; intros k t H; [discriminate|]. cbn [find] in H. cbn [add]. destruct (Nat.eqb a k) eqn:E; [injection H as <-; auto|]. f_equal. auto.
Qed.
Lemma addq_addq : forall p q t, addq p (addq q t) = addq (Nat.lor q p) t.
Proof. intros p q [a k|a c l|a vs l]; cbn [addq]; rewrite Nat.lor_assoc; auto. Qed.
Lemma same_addq : forall m a b, same m a b -> forall p, same m (addq p a) (addq p b).
Proof.
  induction 1 as [q v r B|t|a b H IH|a b c H IH K JH|q c l l' H|q vs l l' H]; intros p.
  - rewrite addq_addq. cbn [addq]. apply S_bind. auto.
  - apply S_refl.
  - apply S_sym. auto.
  - eapply S_trans; eauto.
  - cbn [addq]. apply S_con. auto.
  - cbn [addq]. apply S_fun. auto.
Qed.
(** the maps that normalize goes through: M from m *)
Record from (m M : map_) : Prop := mkfrom {
  F_keys : map fst M = map fst m;
  F_same : forall k r, find m k = Some r -> exists r', find M k = Some r' /\ same m r r' /\ is_var r' k = is_var r k;
  F_mono : Forall (fun e => mono (snd e)) M;
  F_rank : acyclic M }.
Lemma find_keys : forall m k, find m k = None <-> ~ In k (map fst m).
Proof.
  induction m as [|[a s] m IH]; intros k; cbn [find map fst]; [split; auto|]. destruct (Nat.eqb a k) eqn:E.
  - apply Nat.eqb_eq in E. split; [discriminate|]. intros H. exfalso. apply H. left. auto.
  - rewrite IH. apply Nat.eqb_neq in E. split; intros H; [intros [K|K]; auto|]. intros K. apply H. right. auto.
Qed.
Lemma from_bound : forall m M, from m M -> forall v r', bound M v r' -> exists r, bound m v r /\ same m r r'.
Proof.
  intros m M F v r' B. apply bound_iff in B. destruct B as [B V]. destruct (find m v) as [r|] eqn:E.
  - destruct (F_same _ _ F _ _ E) as (s & S1 & S2 & S3). assert (s = r') by congruence. subst s. exists r. split; auto. apply bound_iff. split; auto. congruence.
  - exfalso. apply find_keys in E. rewrite <- (F_keys _ _ F) in E. apply find_keys in E. congruence.
Qed.
Lemma bound_from : forall m M, from m M -> forall v r, bound m v r -> exists r', bound M v r' /\ same m r r'.
Proof.
  intros m M F v r B. apply bound_iff in B. destruct B as [B V]. destruct (F_same _ _ F _ _ B) as (s & S1 & S2 & S3). exists s. split; auto. apply bound_iff. split; auto. congruence.
Qed.
Lemma from_solved : forall m M t, from m M -> solved M t -> solved m t.
Proof. intros m M t F S v r O B. destruct (bound_from _ _ F _ _ B) as (r' & B' & _). eapply S; eauto. Qed.
Lemma from_samet : forall m M, from m M -> forall a b, same M a b -> same m a b.
Proof.
  intros m M F. fix G 3. intros a b H.
  assert (L : forall l l', Forall2 (same M) l l' -> Forall2 (same m) l l').
  { fix L 3. intros l l' K. destruct K as [|x y l l' A B]; constructor; auto. }
  destruct H as [q v r B|t0|a b H|a b c H K|q c l l' H|q vs l l' H].
  - destruct (from_bound _ _ F _ _ B) as (r0 & B0 & S0). eapply S_trans; [apply S_bind; eauto|]. apply same_addq. auto.
  - apply S_refl.
  - apply S_sym. auto.
  - eapply S_trans; eauto.
  - apply S_con. auto.
  - apply S_fun. auto.
Qed.
Lemma mono_entry : forall m k r, Forall (fun e => mono (snd e)) m -> find m k = Some r -> mono r.
Proof. intros m k r H F. rewrite Forall_forall in H. destruct (find_nth _ _ _ F) as [i I]. apply nth_error_In in I. apply (H _ I). Qed.
Lemma from_step : forall m M k r r' f n, from m M -> find M k = Some r -> visit f M true [] r = Some (r', n) -> from m (add M k r') /\ solved m r' /\ same m r r'.
Proof.
  intros m M k r r' f n F E V. assert (Mr : mono r) by (eapply mono_entry; [apply F|eauto]). assert (V' := V). rewrite visit_free in V'; auto; [|apply F].
  assert (So : solved M r') by (eapply visit_solved; eauto). assert (Sa : same M r r') by (eapply visit_same; eauto). assert (So' := from_solved _ _ _ F So). assert (Sa' := from_samet _ _ F _ _ Sa).
  split; [|split; auto]. assert (KI : In k (map fst M)) by (destruct (in_dec Nat.eq_dec k (map fst M)) as [J|J]; auto; apply find_keys in J; congruence).
  assert (IV : is_var r' k = is_var r k).
  { destruct (is_var r k) eqn:A.
    - apply is_var_spec in A. destruct A as [q ->]. destruct f; [discriminate|]. cbn [visit mem existsb] in V'. rewrite E in V'. cbn [is_var] in V'. rewrite Nat.eqb_refl in V'. injection V' as <- _. cbn [is_var]. apply Nat.eqb_refl.
    - destruct (is_var r' k) eqn:B; auto. exfalso. apply is_var_spec in B. destruct B as [q ->]. eapply So; [constructor|]. apply bound_iff. eauto. }
  assert (BB : forall v s, bound (add M k r') v s -> exists s', bound M v s').
  { intros v s B. apply bound_iff in B. destruct B as [B C]. rewrite find_add in B. destruct (Nat.eqb k v) eqn:D; [|exists s; apply bound_iff; auto]. apply Nat.eqb_eq in D. subst v. injection B as <-. exists r. apply bound_iff. split; auto. congruence. }
  constructor.
  - rewrite keys_add; auto. apply F.
  - intros j s J. destruct (F_same _ _ F _ _ J) as (s' & A & B & C). rewrite find_add. destruct (Nat.eqb k j) eqn:D; [|eauto]. apply Nat.eqb_eq in D. subst j. assert (s' = r) by congruence. subst s'. exists r'. split; auto. split; [eapply S_trans; eauto|congruence].
  - rewrite Forall_forall. intros [j s] J. cbn [snd]. assert (MM : mono r') by (eapply visit_monot; [apply F|exact Mr|exact V]). pose proof (F_mono _ _ F) as FM. clear - J MM FM. induction FM as [|[a b] M A B IH]; cbn [add] in J; [destruct J as [J|[]]; injection J as <- <-; auto|].
    destruct (Nat.eqb a k); destruct J as [J|J]; auto; try (injection J as <- <-; auto); try (rewrite Forall_forall in B; apply (B _ J)).
  - destruct (F_rank _ _ F) as (rank & R). exists rank. intros v s w u B O W. destruct (BB _ _ W) as (u' & W'). apply bound_iff in B. destruct B as [B C]. rewrite find_add in B. destruct (Nat.eqb k v) eqn:D.
    + injection B as <-. exfalso. eapply So; eauto.
    + eapply R; eauto. apply bound_iff. auto.
Qed.
Lemma pass_mono : forall f f' n i M x, pass f n i M = Some x -> f <= f' -> pass f' n i M = Some x.
Proof.
  intros f f' n. induction n; intros i M x H L; auto. cbn [pass] in *. destruct (nth_error M i) as [[k r]|]; auto. destruct (visit f M true [] r) as [[r' c]|] eqn:V; [|discriminate]. rewrite (visit_mono _ _ _ _ _ _ _ V L). destruct (pass f n (S i) (add M k r')) as [[m' c']|] eqn:P; [|discriminate]. rewrite (IHn _ _ _ P L). auto.
Qed.
Lemma pass_total : forall m n i M, NoDup (map fst m) -> from m M -> i + n = length M -> (forall j k r, j < i -> nth_error M j = Some (k, r) -> solved m r) ->
  exists f M' c, pass f n i M = Some (M', c) /\ from m M' /\ length M' = length M /\ forall k r, find M' k = Some r -> solved m r.
Proof.
  intros m. induction n; intros i M N F L D.
  - exists 0, M, 0. split; auto. split; auto. split; auto. intros k r K. destruct (find_nth _ _ _ K) as [j J]. eapply D; eauto. assert (j < length M) by (apply nth_error_Some; congruence). lia.
  - destruct (nth_error M i) as [[k r]|] eqn:E; [|apply nth_error_None in E; lia]. assert (N' : NoDup (map fst M)) by (rewrite (F_keys _ _ F); auto). assert (K := nth_find _ _ _ _ N' E).
    destruct (visit_total M true [] r (F_rank _ _ F)) as (f & [r' c] & V). destruct (from_step _ _ _ _ _ _ _ F K V) as (F' & S1 & S2). destruct (nth_add M k r' i N') as [A B].
    { rewrite nth_error_map, E. auto. }
    assert (LL : length (add M k r') = length M) by (rewrite <- (map_length fst), <- (map_length fst M); f_equal; rewrite (F_keys _ _ F'), (F_keys _ _ F); auto).
    destruct (IHn (S i) (add M k r')) as (g & M' & c' & P1 & P2 & P3 & P4); auto; [lia| |].
    { intros j a s J Q. destruct (Nat.eq_dec j i) as [->|Z]; [rewrite A in Q; injection Q as <- <-; auto|]. rewrite B in Q by auto. eapply D; eauto. lia. }
    exists (Nat.max f g), M', (c + c'). split; [|split; auto; split; [lia|auto]]. cbn [pass]. rewrite E. rewrite (visit_mono f (Nat.max f g) _ _ _ _ _ V) by lia. rewrite (pass_mono g (Nat.max f g) _ _ _ _ P1) by lia. auto.
Qed.
Lemma pass_done : forall M, Forall (fun e => mono (snd e)) M -> NoDup (map fst M) -> (forall k r, find M k = Some r -> solved M r) -> forall n i, exists f, pass f n i M = Some (M, 0).
Proof.
  intros M Mo N S. induction n; intros i; [exists 0; auto|]. cbn [pass]. destruct (nth_error M i) as [[k r]|] eqn:E; [|exists 0; auto]. assert (K := nth_find _ _ _ _ N E). destruct (visit_id M r (S _ _ K)) as (f & V). destruct (IHn (Datatypes.S i)) as (g & P).
  exists (Nat.max f g). rewrite visit_free; auto; [|eapply mono_entry; eauto]. rewrite (visit_mono f (Nat.max f g) _ _ _ _ _ V) by lia. rewrite add_id by auto. rewrite (pass_mono g (Nat.max f g) _ _ _ _ P) by lia. auto.
Qed.
