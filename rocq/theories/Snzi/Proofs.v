From Coq Require Import List Bool Arith ZArith Lia ZifyBool.
From Verif.Snzi Require Import Model Spec.
Import ListNotations.
Open Scope Z_scope.
Ltac sf := cbn [val root thr client put putv putr] in *.
Definition b2z (b : bool) : Z := if b then 1 else 0.
Definition isp (t : tree) (h p : nat) : bool := match parent t h with Some q => (q =? p)%nat | None => false end.
Definition p4 (c : apc) : Z := match c with P4 => 1 | _ => 0 end.
(** how often a frame has arrived at p without having begun the departure *)
Definition cf (t : tree) (f : frame) (p : nat) : Z :=
  match f with
  | A h c x u ok => b2z ((h =? p)%nat && ok) + (if isp t h p then Z.of_nat u + p4 c else 0)
  | D h _ _ => b2z (h =? p)%nat
  end.
Fixpoint own (t : tree) (k : list frame) (p : nat) : Z := match k with [] => 0 | f :: k => cf t f p + own t k p end.
Fixpoint sumt (t : tree) (l : list (list frame)) (p : nat) : Z := match l with [] => 0 | k :: l => own t k p + sumt t l p end.
Definition kid (t : tree) (h : nat) (v : value) (p : nat) : Z := b2z (isp t h p && (1 <=? fst v)).
Fixpoint kids (t : tree) (f : nat -> value) (n : nat) (p : nat) : Z := match n with O => 0 | S n => kid t n (f n) p + kids t f n p end.
Definition tot (t : tree) (s : state) (p : nat) : Z := Z.of_nat (client s p) + kids t (val s) (m t) p + sumt t (thr s) p.
Definition amt (t : tree) (s : state) (p : nat) : Z := match parent t p with None => root s | Some _ => if fst (val s p) =? half then 1 else fst (val s p) end.
Lemma b2z_pos : forall b, 0 <= b2z b <= 1.
Proof. destruct b; cbn; lia. Qed.
Lemma cf_pos : forall t f p, 0 <= cf t f p.
Proof. intros t [h c x u ok|h c x] p; cbn [cf]; [|apply b2z_pos]. pose proof (b2z_pos ((h =? p)%nat && ok)). assert (0 <= p4 c) by (destruct c; cbn; lia). destruct (isp t h p); lia. Qed.
Lemma own_pos : forall t k p, 0 <= own t k p.
Proof. intros t k p. induction k as [|f k IH]; cbn [own]; [lia|]. pose proof (cf_pos t f p). lia. Qed.
Lemma sumt_pos : forall t l p, 0 <= sumt t l p.
Proof. intros t l p. induction l as [|f k IH]; cbn [sumt]; [lia|]. pose proof (own_pos t f p). lia. Qed.
Lemma kids_pos : forall t f n p, 0 <= kids t f n p.
Proof. intros t f n p. induction n; cbn [kids]; [lia|]. unfold kid. pose proof (b2z_pos (isp t n p && (1 <=? fst (f n)))). lia. Qed.
Lemma kid_in : forall t f n p h, (h < n)%nat -> kid t h (f h) p <= kids t f n p.
Proof.
  intros t f n p h L. induction n; [lia|]. cbn [kids]. destruct (Nat.eq_dec h n) as [->|N].
  - pose proof (kids_pos t f n p). lia.
  - assert (kid t h (f h) p <= kids t f n p) by (apply IHn; lia). unfold kid in *. pose proof (b2z_pos (isp t n p && (1 <=? fst (f n)))). lia.
Qed.
Lemma kids_ext : forall t f g n p, (forall h, (h < n)%nat -> f h = g h) -> kids t f n p = kids t g n p.
Proof. intros t f g n p H. induction n; cbn [kids]; [reflexivity|]. rewrite H by lia. rewrite IHn; auto. Qed.
Lemma kids_upd : forall t f n p h v, (h < n)%nat -> kids t (upd f h v) n p = kids t f n p + kid t h v p - kid t h (f h) p.
Proof.
  intros t f n p h v L. induction n; [lia|]. cbn [kids]. unfold upd at 1. destruct (Nat.eqb_spec n h) as [->|N].
  - rewrite (kids_ext t (upd f h v) f); [lia|]. intros j J. unfold upd. destruct (Nat.eqb_spec j h); [lia|reflexivity].
  - rewrite IHn by lia. lia.
Qed.
Lemma kids_zero : forall t f n p, kids t f n p = 0 -> forall h, (h < n)%nat -> kid t h (f h) p = 0.
Proof. intros t f n p H h L. pose proof (kid_in t f n p h L). unfold kid in *. pose proof (b2z_pos (isp t h p && (1 <=? fst (f h)))). lia. Qed.
Lemma kids_pick : forall t f n p, 0 < kids t f n p -> exists h, (h < n)%nat /\ isp t h p = true /\ 1 <= fst (f h).
Proof.
  intros t f n p H. induction n; cbn [kids] in H; [lia|]. unfold kid in H. destruct (isp t n p) eqn:E; [destruct (Z.leb_spec 1 (fst (f n)))|]; cbn [andb b2z] in H.
  - exists n. auto.
  - destruct IHn as [h [A1 B]]; [lia|]. exists h. split; [lia|auto].
  - destruct IHn as [h [A1 B]]; [lia|]. exists h. split; [lia|auto].
Qed.
Lemma own_app : forall t a b p, own t (a ++ b) p = own t a p + own t b p.
Proof. intros t a b p. induction a as [|f a IH]; cbn [own app]; lia. Qed.
Lemma sumt_concat : forall t l p, sumt t l p = own t (concat l) p.
Proof. intros t l p. induction l as [|k l IH]; cbn [sumt concat]; [reflexivity|]. rewrite own_app. lia. Qed.
Lemma own_in : forall t k p f, In f k -> cf t f p <= own t k p.
Proof. intros t k p f H. induction k as [|g k IH]; [destruct H|]. destruct H as [<-|H]; cbn [own]; [pose proof (own_pos t k p); lia|]. specialize (IH H). pose proof (cf_pos t g p). lia. Qed.
Lemma own_in2 : forall t k p f g, In f k -> In g k -> f <> g -> cf t f p + cf t g p <= own t k p.
Proof.
  intros t k p f g. induction k as [|e k IH]; intros Hf Hg N; [destruct Hf|]. cbn [own]. destruct Hf as [->|Hf]; destruct Hg as [->|Hg].
  - congruence.
  - pose proof (own_in t k p g Hg). lia.
  - pose proof (own_in t k p f Hf). lia.
  - specialize (IH Hf Hg N). pose proof (cf_pos t e p). lia.
Qed.
Lemma sumt_set : forall t l i k k1 p, nth_error l i = Some k -> sumt t (set l i k1) p = sumt t l p + own t k1 p - own t k p.
Proof.
  intros t l. induction l as [|y l IH]; intros i k k1 p H; destruct i; cbn [nth_error] in H; try discriminate.
  - injection H as ->. cbn [set sumt]. lia.
  - cbn [set sumt]. rewrite (IH _ _ _ _ H). lia.
Qed.
Lemma set_in : forall {X} (l : list X) i k k1 x, nth_error l i = Some k -> In x (set l i k1) -> In x l \/ x = k1.
Proof.
  intros X l. induction l as [|y l IH]; intros i k k1 x H J; destruct i; cbn [nth_error] in H; try discriminate; cbn [set In] in J.
  - destruct J; [auto|left; right; auto].
  - destruct J as [J|J]; [left; left; auto|]. destruct (IH _ _ _ _ H J); [left; right; auto|auto].
Qed.
Lemma set_concat : forall (l : list (list frame)) i k k1 f, nth_error l i = Some k -> In f (concat l) -> In f k \/ In f (concat (set l i k1)).
Proof.
  intros l. induction l as [|y l IH]; intros i k k1 f H J; destruct i; cbn [nth_error] in H; try discriminate; cbn [set concat] in *; apply in_app_or in J.
  - injection H as ->. destruct J; [auto|]. right. apply in_or_app. auto.
  - destruct J as [J|J]; [right; apply in_or_app; auto|]. destruct (IH _ _ k1 f H J); [auto|]. right. apply in_or_app. auto.
Qed.
Lemma set_new : forall (l : list (list frame)) i k k1 f, nth_error l i = Some k -> In f k1 -> In f (concat (set l i k1)).
Proof.
  intros l. induction l as [|y l IH]; intros i k k1 f H J; destruct i; cbn [nth_error] in H; try discriminate; cbn [set concat] in *; apply in_or_app; [auto|]. right. eapply IH; eauto.
Qed.
Lemma nth_concat : forall (l : list (list frame)) i k f, nth_error l i = Some k -> In f k -> In f (concat l).
Proof. intros l i k f H J. apply in_concat. exists k. split; auto. eapply nth_error_In; eauto. Qed.
Lemma tot_put : forall t s i k k1 p, nth_error (thr s) i = Some k -> tot t (put s i k1) p = tot t s p + own t k1 p - own t k p.
Proof. intros. unfold tot. sf. rewrite (sumt_set _ _ _ _ _ _ H). lia. Qed.
Lemma tot_putv : forall t s h v p, (h < m t)%nat -> tot t (putv s h v) p = tot t s p + kid t h v p - kid t h (val s h) p.
Proof. intros. unfold tot. sf. rewrite kids_upd by auto. lia. Qed.
Lemma tot_putr : forall t s z p, tot t (putr s z) p = tot t s p.
Proof. reflexivity. Qed.
Lemma upd_same : forall {X} (f : nat -> X) i x, upd f i x i = x.
Proof. intros. unfold upd. rewrite Nat.eqb_refl. reflexivity. Qed.
Lemma upd_other : forall {X} (f : nat -> X) i x j, j <> i -> upd f i x j = f j.
Proof. intros. unfold upd. apply Nat.eqb_neq in H. rewrite H. reflexivity. Qed.
Lemma veqb_eq : forall a b, veqb a b = true <-> a = b.
Proof.
  intros [a1 a2] [b1 b2]. unfold veqb. cbn [fst snd]. rewrite andb_true_iff, Z.eqb_eq, Nat.eqb_eq. split; [intros [-> ->]; reflexivity|intros H; injection H as -> ->; auto].
Qed.
(** well-formed frames and stacks *)
Definition inner (t : tree) (h : nat) : Prop := (h < m t)%nat /\ parent t h <> None.
Definition okf (t : tree) (f : frame) : Prop :=
  match f with
  | A h PRead _ u ok => (h < m t)%nat /\ ok = false /\ (parent t h = None -> u = O)
  | A h P1 _ _ ok => inner t h /\ ok = false
  | A h P2 x _ ok => inner t h /\ (ok = true -> 1 <= fst x)
  | A h P3 x _ ok => inner t h /\ (ok = true -> 1 <= fst x \/ fst x = half)
  | A h (InArr | P4) x _ _ => inner t h /\ fst x = half
  | A h (Undo | InDep) _ _ ok => inner t h /\ ok = true
  | D h DRead _ => (h < m t)%nat
  | D h DCas x => inner t h /\ 1 <= fst x
  end.
Definition under (t : tree) (g f : frame) : Prop :=
  match f, g with
  | A h InArr _ _ _, A q _ _ _ _ => parent t h = Some q
  | A h InDep _ _ _, D _ _ _ => True
  | _, _ => False
  end.
Fixpoint chain (t : tree) (g : frame) (r : list frame) : Prop := match r with [] => True | f :: r => okf t f /\ under t g f /\ chain t f r end.
Definition act_top (f : frame) : Prop := match f with A _ (InArr | InDep) _ _ _ => False | _ => True end.
Definition okk (t : tree) (k : list frame) : Prop := match k with [] => True | f :: r => okf t f /\ act_top f /\ chain t f r end.
(** the arrival that made the count one half *)
Definition wit (p : nat) (v : value) (f : frame) : Prop := match f with A h (P3 | InArr | P4) x _ true => h = p /\ x = v | _ => False end.
Record Inv (t : tree) (s : state) : Prop := {
  I_eq : forall p, (p < m t)%nat -> tot t s p = amt t s p;
  I_rng : forall p, -1 <= fst (val s p);
  I_stk : forall i k, nth_error (thr s) i = Some k -> okk t k;
  I_half : forall p, inner t p -> fst (val s p) = half -> exists f, In f (concat (thr s)) /\ wit p (val s p) f;
  I_cl : forall p, (m t <= p)%nat -> client s p = O }.
Lemma start_inv : forall t k, Inv t (start k).
Proof.
  intros t k.
  assert (Z1 : forall p, sumt t (repeat [] k) p = 0) by (intros p; induction k; cbn [repeat sumt own]; lia).
  assert (Z2 : forall n p, kids t (fun _ => (0, O)) n p = 0). { intros n p. induction n; cbn [kids]; [reflexivity|]. rewrite IHn. unfold kid. cbn. rewrite andb_false_r. reflexivity. }
  constructor; unfold start; sf; cbn [fst]; try lia.
  - intros p L. unfold tot, amt. sf. rewrite Z1, Z2. cbn. destruct (parent t p); reflexivity.
  - intros i l H. apply nth_error_In in H. apply repeat_spec in H. subst. exact I.
  - intros p _ H. discriminate.
Qed.
(** a witness holds the only arrival *)
Lemma half_alone : forall t s p f, Inv t s -> inner t p -> fst (val s p) = half -> In f (concat (thr s)) -> cf t f p = 0 \/ wit p (val s p) f.
Proof.
  intros t s p f I P H F. destruct (I_half _ _ I p P H) as [w [W1 W2]]. pose proof (I_eq _ _ I p (proj1 P)) as E. unfold tot, amt in E. destruct (parent t p) as [q|] eqn:Q; [|destruct P; congruence]. rewrite H in E. cbn in E.
  assert (C : 1 <= cf t w p). { destruct w as [h c x u ok|]; [|destruct W2]. destruct ok; [|destruct c; destruct W2]. assert (h = p) by (destruct c; destruct W2; auto). subst h. cbn [cf]. rewrite Nat.eqb_refl. cbn [andb b2z]. assert (0 <= p4 c) by (destruct c; cbn; lia). destruct (isp t p p); lia. }
  rewrite sumt_concat in E. pose proof (kids_pos t (val s) (m t) p).
  assert (DEC : {f = w} + {f <> w}) by (repeat decide equality). destruct DEC as [->|N]; [auto|].
  left. pose proof (own_in2 t _ p f w F W1 N). pose proof (cf_pos t f p). lia.
Qed.
Lemma half_none : forall t s p, Inv t s -> inner t p -> fst (val s p) = half -> client s p = O /\ kids t (val s) (m t) p = 0.
Proof.
  intros t s p I P H. destruct (I_half _ _ I p P H) as [w [W1 W2]]. pose proof (I_eq _ _ I p (proj1 P)) as E. unfold tot, amt in E. destruct (parent t p) as [q|] eqn:Q; [|destruct P; congruence]. rewrite H in E. cbn in E.
  assert (C : 1 <= cf t w p). { destruct w as [h c x u ok|]; [|destruct W2]. destruct ok; [|destruct c; destruct W2]. assert (h = p) by (destruct c; destruct W2; auto). subst h. cbn [cf]. rewrite Nat.eqb_refl. cbn [andb b2z]. assert (0 <= p4 c) by (destruct c; cbn; lia). destruct (isp t p p); lia. }
  rewrite sumt_concat in E. pose proof (kids_pos t (val s) (m t) p). pose proof (own_in t _ p w W1). lia.
Qed.
Lemma gen_inv : forall t s s1 i k k1, Inv t s -> nth_error (thr s) i = Some k -> thr s1 = set (thr s) i k1 ->
  (forall p, (p < m t)%nat -> tot t s1 p - tot t s p = amt t s1 p - amt t s p) ->
  (forall p, -1 <= fst (val s1 p)) -> okk t k1 ->
  (forall p, inner t p -> fst (val s1 p) = half -> (exists f, In f k1 /\ wit p (val s1 p) f) \/
     (val s1 p = val s p /\ forall f, In f k -> wit p (val s p) f -> exists g, In g k1 /\ wit p (val s p) g)) ->
  (forall p, (m t <= p)%nat -> client s1 p = O) -> Inv t s1.
Proof.
  intros t s s1 i k k1 I N T E R O HF C. constructor; auto.
  - intros p L. specialize (E p L). pose proof (I_eq _ _ I p L). lia.
  - intros j l H. rewrite T in H. apply nth_error_In in H. destruct (set_in _ _ _ _ _ N H) as [J| ->]; auto. apply In_nth_error in J. destruct J as [j1 J]. apply (I_stk _ _ I j1); auto.
  - intros p P H. rewrite T. destruct (HF p P H) as [[f [F1 F2]]|[V F]].
    + exists f. split; auto. eapply set_new; eauto.
    + rewrite V in *. destruct (I_half _ _ I p P H) as [w [W1 W2]]. destruct (set_concat _ _ _ k1 w N W1) as [W|W]; [|exists w; auto].
      destruct (F w W W2) as [g [G1 G2]]. exists g. split; auto. eapply set_new; eauto.
Qed.
Lemma isp_self : forall t h, wf t -> (h < m t)%nat -> isp t h h = false.
Proof. intros t h [W _] L. unfold isp. destruct (parent t h) as [q|] eqn:E; auto. destruct (W h q L E). apply Nat.eqb_neq. lia. Qed.
(** a step that changes nothing but the top frame *)
Lemma put_inv : forall t s i f r k1, Inv t s -> nth_error (thr s) i = Some (f :: r) -> okk t k1 ->
  (forall p, (p < m t)%nat -> own t k1 p = own t (f :: r) p) ->
  (forall p, inner t p -> fst (val s p) = half -> forall g, In g (f :: r) -> wit p (val s p) g -> exists g1, In g1 k1 /\ wit p (val s p) g1) ->
  Inv t (put s i k1).
Proof.
  intros t s i f r k1 I N O E W. eapply gen_inv with (k1 := k1); eauto; sf; auto.
  - intros p L. rewrite (tot_put _ _ _ _ _ _ N). rewrite E by auto. unfold amt. sf. lia.
  - apply (I_rng _ _ I).
  - apply (I_cl _ _ I).
Qed.
Lemma ok_top : forall t s i f r, Inv t s -> nth_error (thr s) i = Some (f :: r) -> okf t f /\ act_top f /\ chain t f r.
Proof. intros t s i f r I N. apply (I_stk _ _ I _ _ N). Qed.
Lemma chain_same : forall t f g r, (match f, g with A h _ _ _ _, A h1 _ _ _ _ => h = h1 | D _ _ _, D _ _ _ => True | _, _ => False end) -> chain t f r -> chain t g r.
Proof.
  intros t f g r E C. destruct r as [|e r]; [exact I|]. cbn [chain] in *. destruct C as [C1 [C2 C3]]. split; auto. split; auto.
  destruct e as [h c x u ok|h c x]; destruct c; cbn [under] in *; destruct f, g; try tauto; subst; auto.
Qed.
(** witnesses in the part of the stack that stays *)
Ltac wits := intros PP HP g [<-|G] W; [cbn [wit] in W|exists g; split; [cbn [In]; auto|exact W]].
Ltac okt C := cbn [okk]; split; [cbn [okf]; try (repeat split; auto; fail)|split; [exact Logic.I|eapply chain_same; [|exact C]; cbn; auto]].
Ltac keepw := intros PP HP g [<-|G] W; [cbn [wit] in W; try (destruct W; fail)|exists g; split; [cbn [In]; auto|exact W]].
Lemma p1_inv : forall t s i h x u ok r v, wf t -> Inv t s -> nth_error (thr s) i = Some (A h PRead x u ok :: r) -> parent t h <> None -> v = val s h -> Inv t (put s i (A h P1 v u ok :: r)).
Proof.
  intros t s i h x u ok r v WF I N P ->. destruct (ok_top _ _ _ _ _ I N) as [O [T C]]. destruct O as [O1 [O2 _]].
  eapply put_inv; eauto.
  - okt C.
  - intros p. keepw.
Qed.
(** a failed or skipped test *)
Lemma p2_inv : forall t s i h x u ok r v, wf t -> Inv t s -> nth_error (thr s) i = Some (A h P1 x u ok :: r) -> Inv t (put s i (A h P2 v u ok :: r)).
Proof.
  intros t s i h x u ok r v WF I N. destruct (ok_top _ _ _ _ _ I N) as [O [T C]]. destruct O as [O1 O2].
  eapply put_inv; eauto.
  - okt C. split; auto. congruence.
  - intros p. keepw.
Qed.
Lemma p3_inv : forall t s i h x u ok r v, wf t -> Inv t s -> nth_error (thr s) i = Some (A h P2 x u ok :: r) -> (ok = true -> 1 <= fst v) -> Inv t (put s i (A h P3 v u ok :: r)).
Proof.
  intros t s i h x u ok r v WF I N OK. destruct (ok_top _ _ _ _ _ I N) as [O [T C]]. destruct O as [O1 O2].
  eapply put_inv; eauto.
  - okt C. split; auto.
  - intros p. keepw.
Qed.
Lemma kid_other : forall t h v p, isp t h p = false -> kid t h v p = 0.
Proof. intros t h v p H. unfold kid. rewrite H. reflexivity. Qed.
Lemma amt_putv : forall t s h v p, p <> h -> amt t (putv s h v) p = amt t s p.
Proof. intros. unfold amt. sf. rewrite upd_other by auto. reflexivity. Qed.
Lemma amt_put : forall t s i k p, amt t (put s i k) p = amt t s p.
Proof. reflexivity. Qed.
Lemma amt_here : forall t s h v, parent t h <> None -> amt t (putv s h v) h = if fst v =? half then 1 else fst v.
Proof. intros. unfold amt. sf. rewrite upd_same. destruct (parent t h); congruence. Qed.
Lemma amt_in : forall t s h, parent t h <> None -> amt t s h = if fst (val s h) =? half then 1 else fst (val s h).
Proof. intros. unfold amt. destruct (parent t h); congruence. Qed.
(** a step that changes the value of a node and the top frame *)
Lemma putv_inv : forall t s i f r k1 h v, wf t -> Inv t s -> nth_error (thr s) i = Some (f :: r) -> okk t k1 -> inner t h -> -1 <= fst v ->
  own t k1 h - own t (f :: r) h = (if fst v =? half then 1 else fst v) - (if fst (val s h) =? half then 1 else fst (val s h)) ->
  (forall p, p <> h -> own t k1 p - own t (f :: r) p + kid t h v p - kid t h (val s h) p = 0) ->
  (fst v = half -> exists f, In f k1 /\ wit h v f) ->
  (forall p, p <> h -> inner t p -> fst (val s p) = half -> forall g, In g (f :: r) -> wit p (val s p) g -> exists g1, In g1 k1 /\ wit p (val s p) g1) ->
  Inv t (put (putv s h v) i k1).
Proof.
  intros t s i f r k1 h v WF I N O P R E1 E2 W1 W2.
  eapply gen_inv with (k1 := k1); eauto; sf.
  - intros p L. rewrite (tot_put t (putv s h v) i _ k1 p N), tot_putv by apply P. rewrite !amt_put. destruct (Nat.eq_dec p h) as [->|NE].
    + rewrite amt_here, amt_in by apply P. rewrite !kid_other by (apply isp_self; [auto|apply P]). lia.
    + rewrite amt_putv by auto. specialize (E2 p NE). lia.
  - intros p. destruct (Nat.eq_dec p h) as [->|NE]; [rewrite upd_same; auto|rewrite upd_other by auto; apply (I_rng _ _ I)].
  - intros p PP H. destruct (Nat.eq_dec p h) as [->|NE]; [rewrite upd_same in *; auto|rewrite upd_other in * by auto; right; split; [reflexivity|apply (W2 p NE PP H)]].
  - apply (I_cl _ _ I).
Qed.
Lemma inc_inv : forall t s i h x u ok r, wf t -> Inv t s -> nth_error (thr s) i = Some (A h P1 x u ok :: r) -> 1 <= fst x -> val s h = x -> Inv t (put (putv s h (fst x + 1, snd x)) i (A h P2 x u true :: r)).
Proof.
  intros t s i h x u ok r WF I N L V. destruct (ok_top _ _ _ _ _ I N) as [O [T C]]. destruct O as [O1 ->].
  eapply putv_inv; eauto; cbn [fst].
  - okt C. split; auto.
  - lia.
  - cbn [own cf p4]. rewrite (isp_self t h WF (proj1 O1)), Nat.eqb_refl, V. cbn [andb b2z]. unfold half. destruct (Z.eqb_spec (fst x + 1) (-1)), (Z.eqb_spec (fst x) (-1)); lia.
  - intros p NE. cbn [own cf p4]. rewrite V. unfold kid. cbn [fst]. destruct (Nat.eqb_spec h p); [congruence|]. cbn [andb b2z]. replace (1 <=? fst x + 1) with (1 <=? fst x) by lia. lia.
  - unfold half. lia.
  - intros p NE. keepw.
Qed.
Lemma half_inv : forall t s i h x u ok r, wf t -> Inv t s -> nth_error (thr s) i = Some (A h P2 x u ok :: r) -> fst x = 0 -> val s h = x -> Inv t (put (putv s h (half, S (snd x))) i (A h P3 (half, S (snd x)) u true :: r)).
Proof.
  intros t s i h x u ok r WF I N L V. destruct (ok_top _ _ _ _ _ I N) as [O [T C]]. destruct O as [O1 OK]. assert (ok = false) as -> by (destruct ok; auto; specialize (OK eq_refl); lia).
  eapply putv_inv; eauto; cbn [fst].
  - okt C. split; auto.
  - unfold half. lia.
  - cbn [own cf p4]. rewrite (isp_self t h WF (proj1 O1)), Nat.eqb_refl, V, L. replace (0 =? half) with false by reflexivity. rewrite Z.eqb_refl. cbn [andb b2z]. lia.
  - intros p NE. cbn [own cf p4]. rewrite V. unfold kid. rewrite L. cbn [fst]. destruct (Nat.eqb_spec h p); [congruence|]. cbn [andb b2z]. rewrite !andb_false_r. cbn. lia.
  - intros _. exists (A h P3 (half, S (snd x)) u true). split; [left; auto|]. cbn. auto.
  - intros p NE. keepw.
Qed.
Lemma skip_inv : forall t s i h x u ok r, wf t -> Inv t s -> nth_error (thr s) i = Some (A h P3 x u ok :: r) -> fst x <> half -> Inv t (put s i (A h (nxt ok) x u ok :: r)).
Proof.
  intros t s i h x u ok r WF I N H. destruct (ok_top _ _ _ _ _ I N) as [O [T C]]. destruct O as [O1 OK].
  eapply put_inv; eauto.
  - destruct ok; cbn [nxt]; okt C; destruct O1 as [Q1 Q2]; repeat split; auto; intros; congruence.
  - intros p L. cbn [own cf]. destruct ok; cbn [nxt p4]; lia.
  - intros p. keepw. destruct ok; [|destruct W]. destruct W as [-> ->]. congruence.
Qed.
Lemma call_inv : forall t s i h x u ok r q, wf t -> Inv t s -> nth_error (thr s) i = Some (A h P3 x u ok :: r) -> fst x = half -> parent t h = Some q -> Inv t (put s i (A q PRead (0, O) 0 false :: A h InArr x u ok :: r)).
Proof.
  intros t s i h x u ok r q WF I N H Q. destruct (ok_top _ _ _ _ _ I N) as [O [T C]]. destruct O as [O1 OK]. destruct O1 as [Q1 Q2]. destruct WF as [WF1 WF2]. pose proof (WF1 h q Q1 Q) as LQ.
  eapply put_inv; eauto.
  - cbn [okk okf chain under act_top]. repeat split; auto; try lia. eapply chain_same; [|exact C]. reflexivity.
  - intros p L. cbn [own cf p4]. rewrite andb_false_r. cbn [b2z Z.of_nat]. destruct (isp t q p); lia.
  - intros p. wits.
    exists (A h InArr x u ok). split; [right; left; auto|]. cbn. exact W.
Qed.
Lemma one_inv : forall t s i h x u ok r, wf t -> Inv t s -> nth_error (thr s) i = Some (A h P4 x u ok :: r) -> val s h = x -> Inv t (put (putv s h (1, snd x)) i (A h (nxt ok) x u ok :: r)).
Proof.
  intros t s i h x u ok r WF I N V. destruct (ok_top _ _ _ _ _ I N) as [O [T C]]. destruct O as [O1 OK].
  eapply putv_inv; eauto; cbn [fst].
  - destruct ok; cbn [nxt]; okt C; destruct O1 as [Q1 Q2]; repeat split; auto; intros; congruence.
  - lia.
  - cbn [own cf p4]. rewrite (isp_self t h WF (proj1 O1)), V, OK. replace (1 =? half) with false by reflexivity. rewrite Z.eqb_refl. lia.
  - intros p NE. cbn [own cf]. rewrite V. unfold kid. rewrite OK. cbn [fst]. destruct (Nat.eqb_spec h p); [congruence|]. cbn [andb b2z]. destruct (isp t h p), ok; cbn; lia.
  - unfold half. lia.
  - intros p NE. wits. destruct ok; [|destruct W]. destruct W; congruence.
Qed.
Lemma more_inv : forall t s i h x u ok r, wf t -> Inv t s -> nth_error (thr s) i = Some (A h P4 x u ok :: r) -> val s h <> x -> Inv t (put s i (A h (nxt ok) (val s h) (S u) ok :: r)).
Proof.
  intros t s i h x u ok r WF I N V. destruct (ok_top _ _ _ _ _ I N) as [O [T C]]. destruct O as [O1 OK].
  eapply put_inv; eauto.
  - destruct ok; cbn [nxt]; okt C; destruct O1 as [Q1 Q2]; repeat split; auto; intros; congruence.
  - intros p L. cbn [own cf p4]. destruct (isp t h p), ok; cbn [nxt p4]; lia.
  - intros p. wits. destruct ok; [|destruct W]. destruct W as [-> W]. congruence.
Qed.
Lemma undo_inv : forall t s i h x u ok r q, wf t -> Inv t s -> nth_error (thr s) i = Some (A h Undo x (S u) ok :: r) -> parent t h = Some q -> Inv t (put s i (D q DRead (0, O) :: A h InDep x u ok :: r)).
Proof.
  intros t s i h x u ok r q WF I N Q. destruct (ok_top _ _ _ _ _ I N) as [O [T C]]. destruct O as [O1 OK]. destruct O1 as [Q1 Q2]. destruct WF as [WF1 WF2]. pose proof (WF1 h q Q1 Q) as LQ.
  eapply put_inv; eauto.
  - cbn [okk okf chain under act_top]. repeat split; auto; try lia. eapply chain_same; [|exact C]. reflexivity.
  - intros p L. cbn [own cf p4]. unfold isp. rewrite Q. destruct (q =? p)%nat; cbn [b2z]; lia.
  - intros p. wits. destruct W.
Qed.
Definition after_d (r : list frame) : list frame := match r with A h InDep x u ok :: r => A h Undo x u ok :: r | _ => r end.
Lemma ret_d_put : forall s i r, ret_d s i r = put s i (after_d r).
Proof. intros s i r. unfold ret_d, after_d, put. destruct r as [|[h c x u ok|] r]; auto. destruct c; auto. Qed.
Lemma own_after_d : forall t r p, own t (after_d r) p = own t r p.
Proof. intros t r p. unfold after_d. destruct r as [|[h c x u ok|] r]; auto. destruct c; auto. Qed.
Lemma okk_after_d : forall t h c x r, chain t (D h c x) r -> okk t (after_d r).
Proof.
  intros t h c x r H. destruct r as [|f r]; [exact I|]. cbn [chain] in H. destruct H as [O [U C]]. destruct f as [h1 c1 x1 u ok|]; [|destruct U]. destruct c1; try destruct U.
  cbn [after_d okk]. split; [exact O|]. split; [exact Logic.I|]. eapply chain_same; [|exact C]. reflexivity.
Qed.
Lemma wit_after_d : forall t h c x r p v g, chain t (D h c x) r -> In g r -> wit p v g -> In g (after_d r).
Proof.
  intros t h c x r p v g C G W. destruct r as [|f r]; [destruct G|]. unfold after_d. destruct f as [h1 c1 x1 u ok|]; auto. destruct c1; auto. destruct G as [<-|G]; [destruct W|right; auto].
Qed.
(** departures *)
Lemma dread_pos : forall t s i h c x r, wf t -> Inv t s -> nth_error (thr s) i = Some (D h c x :: r) -> inner t h -> 1 <= fst (val s h).
Proof.
  intros t s i h c x r WF I N P. assert (F : In (D h c x) (concat (thr s))) by (eapply nth_concat; [exact N|left; reflexivity]).
  assert (C : cf t (D h c x) h = 1) by (cbn [cf]; rewrite Nat.eqb_refl; reflexivity).
  pose proof (I_eq _ _ I h (proj1 P)) as E. rewrite amt_in in E by apply P. unfold tot in E. rewrite sumt_concat in E. pose proof (own_in t _ h _ F) as O. pose proof (kids_pos t (val s) (m t) h).
  destruct (Z.eqb_spec (fst (val s h)) half) as [H0|H0].
  - destruct (half_alone _ _ _ _ I P H0 F) as [Q|Q]; [lia|destruct Q].
  - lia.
Qed.
Lemma dload_inv : forall t s i h x r, wf t -> Inv t s -> nth_error (thr s) i = Some (D h DRead x :: r) -> parent t h <> None -> Inv t (put s i (D h DCas (val s h) :: r)).
Proof.
  intros t s i h x r WF I N P. destruct (ok_top _ _ _ _ _ I N) as [O [T C]]. cbn [okf] in O.
  eapply put_inv; eauto.
  - okt C. split; [split; auto|]. eapply dread_pos; eauto. split; auto.
  - intros p. keepw.
Qed.
Lemma dagain_inv : forall t s i h x r v, wf t -> Inv t s -> nth_error (thr s) i = Some (D h DCas x :: r) -> Inv t (put s i (D h DRead v :: r)).
Proof.
  intros t s i h x r v WF I N. destruct (ok_top _ _ _ _ _ I N) as [O [T C]]. destruct O as [O1 OK].
  eapply put_inv; eauto.
  - okt C. apply O1.
  - intros p. keepw.
Qed.
Lemma droot_inv : forall t s i h x r, wf t -> Inv t s -> nth_error (thr s) i = Some (D h DRead x :: r) -> parent t h = None -> Inv t (ret_d (putr s (root s - 1)) i r).
Proof.
  intros t s i h x r WF I N P. destruct (ok_top _ _ _ _ _ I N) as [O [T C]]. cbn [okf] in O. rewrite ret_d_put.
  eapply gen_inv with (k1 := after_d r); eauto; sf.
  - intros p L. rewrite (tot_put t (putr s (root s - 1)) i _ (after_d r) p N), tot_putr, own_after_d. cbn [own cf]. unfold amt. sf. destruct WF as [_ W2]. destruct (Nat.eqb_spec h p) as [->|NE].
    + rewrite P. cbn [b2z]. lia.
    + cbn [b2z]. destruct (parent t p) eqn:Q; [lia|]. pose proof (W2 p L Q). pose proof (W2 h O P). lia.
  - apply (I_rng _ _ I).
  - eapply okk_after_d; eauto.
  - intros p PP HP. right. split; auto. intros g [<-|G] W; [destruct W|]. exists g. split; auto. eapply wit_after_d; eauto.
  - apply (I_cl _ _ I).
Qed.
Lemma ddec_inv : forall t s i h x r, wf t -> Inv t s -> nth_error (thr s) i = Some (D h DCas x :: r) -> val s h = x -> fst x <> 1 -> Inv t (ret_d (putv s h (fst x - 1, snd x)) i r).
Proof.
  intros t s i h x r WF I N V X. destruct (ok_top _ _ _ _ _ I N) as [O [T C]]. destruct O as [O1 OK]. rewrite ret_d_put.
  eapply putv_inv; eauto; cbn [fst].
  - eapply okk_after_d; eauto.
  - lia.
  - rewrite own_after_d. cbn [own cf]. rewrite Nat.eqb_refl, V. cbn [b2z]. unfold half. destruct (Z.eqb_spec (fst x - 1) (-1)), (Z.eqb_spec (fst x) (-1)); lia.
  - intros p NE. rewrite own_after_d. cbn [own cf]. rewrite V. unfold kid. cbn [fst]. destruct (Nat.eqb_spec h p); [congruence|]. cbn [b2z]. replace (1 <=? fst x - 1) with (1 <=? fst x) by lia. lia.
  - unfold half. lia.
  - intros p NE PP HP g [<-|G] W; [destruct W|]. exists g. split; auto. eapply wit_after_d; eauto.
Qed.
Lemma dlast_inv : forall t s i h x r q, wf t -> Inv t s -> nth_error (thr s) i = Some (D h DCas x :: r) -> val s h = x -> fst x = 1 -> parent t h = Some q -> Inv t (put (putv s h (fst x - 1, snd x)) i (D q DRead (0, O) :: r)).
Proof.
  intros t s i h x r q WF I N V X Q. destruct (ok_top _ _ _ _ _ I N) as [O [T C]]. destruct O as [O1 OK].
  eapply putv_inv; eauto; cbn [fst].
  - cbn [okk okf act_top]. split; [destruct WF as [W1 _]; destruct (W1 h q (proj1 O1) Q); auto|]. split; auto. eapply chain_same; [|exact C]. exact Logic.I.
  - lia.
  - cbn [own cf]. rewrite Nat.eqb_refl, V, X. destruct WF as [W1 _]. destruct (W1 h q (proj1 O1) Q). destruct (Nat.eqb_spec q h); [lia|]. replace (1 - 1 =? half) with false by reflexivity. replace (1 =? half) with false by reflexivity. cbn [b2z]. lia.
  - intros p NE. cbn [own cf]. rewrite V. unfold kid, isp. rewrite Q, X. cbn [fst]. destruct (Nat.eqb_spec h p); [congruence|]. replace (1 <=? 1 - 1) with false by reflexivity. replace (1 <=? 1) with true by reflexivity. destruct (q =? p)%nat; cbn [andb b2z]; lia.
  - unfold half. lia.
  - intros p NE. keepw.
Qed.
(** arrivals that return *)
Definition after_a (r : list frame) : list frame := match r with A h InArr x u ok :: r => A h P4 x u ok :: r | _ => r end.
Lemma ret_a_inv : forall t s i h c x u ok r z, wf t -> Inv t s -> nth_error (thr s) i = Some (A h c x u ok :: r) ->
  (c = Undo /\ u = O /\ z = root s) \/ (c = PRead /\ parent t h = None /\ z = root s + 1) -> Inv t (ret_a (putr s z) i h r).
Proof.
  intros t s i h c x u ok r z WF I N H. destruct (ok_top _ _ _ _ _ I N) as [O [T C]].
  assert (HM : (h < m t)%nat) by (destruct H as [[-> _]|[-> _]]; apply O).
  (* what changes: the root's count or the frame's own arrival *)
  assert (CH : forall p, (p < m t)%nat -> amt t (putr s z) p = amt t s p + b2z (h =? p)%nat - cf t (A h c x u ok) p).
  { intros p L. unfold amt. sf. cbn [cf]. destruct H as [[-> [-> ->]]|[-> [P ->]]]; cbn [okf] in O.
    - destruct O as [_ ->]. rewrite andb_true_r. cbn. destruct (isp t h p); lia.
    - destruct O as [_ [-> U]]. rewrite (U P). rewrite andb_false_r. cbn. assert (isp t h p = false) as -> by (unfold isp; rewrite P; reflexivity). destruct WF as [_ W2]. destruct (Nat.eqb_spec h p) as [->|NE].
      + rewrite P. cbn. lia.
      + destruct (parent t p) eqn:Q; cbn; [lia|]. pose proof (W2 p L Q). pose proof (W2 h HM P). lia. }
  assert (CASE : (r = [] \/ exists h1 x1 u1 ok1 r1, r = A h1 InArr x1 u1 ok1 :: r1)).
  { destruct r as [|f r]; auto. right. cbn [chain] in C. destruct C as [_ [U _]]. destruct f as [h1 c1 x1 u1 ok1|]; [|destruct U]. destruct c1; try destruct U. eauto 8. }
  destruct CASE as [-> | [h1 [x1 [u1 [ok1 [r1 ->]]]]]]; cbn [ret_a].
  - eapply gen_inv with (k1 := []); eauto; sf; auto.
    + intros p L. assert (T1 : tot t (mk (val s) z (set (thr s) i []) (upd (client s) h (client s h + 1)%nat)) p = tot t s p + b2z (h =? p)%nat - cf t (A h c x u ok) p).
      { unfold tot. sf. rewrite (sumt_set _ _ _ _ _ _ N). cbn [own]. unfold upd. destruct (Nat.eqb_spec p h), (Nat.eqb_spec h p); subst; try congruence; cbn [b2z]; lia. }
      rewrite T1. specialize (CH p L). unfold amt in *. sf. lia.
    + apply (I_rng _ _ I).
    + intros p PP HP. right. split; auto. intros g [<-|[]] W. destruct H as [[-> _]|[-> _]]; destruct W.
    + intros p L. rewrite upd_other by lia. apply (I_cl _ _ I). auto.
  - cbn [chain under] in C. destruct C as [O1 [U C]].
    assert (S1 : forall p, own t (A h1 P4 x1 u1 ok1 :: r1) p = own t (A h1 InArr x1 u1 ok1 :: r1) p + b2z (h =? p)%nat).
    { intros p. cbn [own cf p4]. unfold isp. rewrite U. destruct (Nat.eqb_spec h p); cbn [b2z]; lia. }
    eapply gen_inv with (k1 := A h1 P4 x1 u1 ok1 :: r1); eauto; sf; auto.
    + intros p L. assert (T1 : tot t (mk (val s) z (set (thr s) i (A h1 P4 x1 u1 ok1 :: r1)) (client s)) p = tot t s p + b2z (h =? p)%nat - cf t (A h c x u ok) p).
      { unfold tot. sf. rewrite (sumt_set _ _ _ _ _ _ N). rewrite S1. cbn [own]. lia. }
      rewrite T1. specialize (CH p L). unfold amt in *. sf. lia.
    + apply (I_rng _ _ I).
    + cbn [okk okf act_top] in *. split; auto. split; auto. eapply chain_same; [|exact C]. reflexivity.
    + intros p PP HP. right. split; auto. intros g [<-|[<-|G]] W.
      * destruct H as [[-> _]|[-> _]]; destruct W.
      * eexists. split; [left; reflexivity|]. exact W.
      * exists g. split; [right; auto|auto].
    + apply (I_cl _ _ I).
Qed.
Lemma step_inv : forall t s i a s1, wf t -> Inv t s -> step t s i a = Some s1 -> Inv t s1.
Proof.
  intros t s i a s1 WF I H. unfold step in H. destruct (nth_error (thr s) i) as [[|[h c x u ok|h c x] r]|] eqn:N; try discriminate; destruct a as [|g|g]; try discriminate.
  - destruct (Nat.ltb_spec g (m t)); [|discriminate]. injection H as <-. eapply gen_inv with (k1 := [A g PRead (0, O) 0 false]); eauto; sf; auto.
    + intros p L. rewrite (tot_put _ _ _ _ _ _ N). unfold amt. sf. cbn [own cf p4]. rewrite andb_false_r. cbn. destruct (isp t g p); lia.
    + apply (I_rng _ _ I).
    + cbn. auto.
    + intros p PP HP. right. split; auto. intros f [].
    + apply (I_cl _ _ I).
  - destruct (client s g) as [|n] eqn:C; [discriminate|]. injection H as <-. eapply gen_inv with (k1 := [D g DRead (0, O)]); eauto; sf; auto.
    + intros p L. unfold tot, amt. sf. rewrite (sumt_set _ _ _ _ _ _ N). cbn [own cf]. unfold upd. destruct (Nat.eqb_spec p g), (Nat.eqb_spec g p); subst; try congruence; cbn [b2z]; lia.
    + apply (I_rng _ _ I).
    + cbn. split; auto. destruct (Nat.lt_ge_cases g (m t)) as [L|L]; auto. rewrite (I_cl _ _ I g L) in C. discriminate.
    + intros p PP HP. right. split; auto. intros f [].
    + intros p L. destruct (Nat.eq_dec p g) as [->|NE]; [rewrite (I_cl _ _ I g L) in C; discriminate|]. rewrite upd_other by auto. apply (I_cl _ _ I). auto.
  - destruct (ok_top _ _ _ _ _ I N) as [O [T C]]. destruct c; cbn [arr] in H; try discriminate.
    + destruct (parent t h) eqn:P; injection H as <-; [eapply p1_inv; eauto; congruence|]. eapply ret_a_inv; eauto.
    + injection H as <-. destruct (Z.leb_spec 1 (fst x)); [destruct (veqb (val s h) x) eqn:V|]; [apply veqb_eq in V; eapply inc_inv; eauto|eapply p2_inv; eauto|eapply p2_inv; eauto].
    + destruct O as [O1 OK]. injection H as <-. destruct (Z.eqb_spec (fst x) 0); [destruct (veqb (val s h) x) eqn:V|]; [apply veqb_eq in V; eapply half_inv; eauto| |eapply p3_inv; eauto].
      eapply p3_inv; eauto. intros Q. specialize (OK Q). lia.
    + destruct (Z.eqb_spec (fst x) half); [|injection H as <-; eapply skip_inv; eauto]. destruct (parent t h) eqn:P; [|discriminate]. injection H as <-. eapply call_inv; eauto.
    + injection H as <-. destruct (veqb (val s h) x) eqn:V; [apply veqb_eq in V; eapply one_inv; eauto|]. eapply more_inv; eauto. intros Q. apply veqb_eq in Q. congruence.
    + destruct u as [|u]; [injection H as <-; apply (ret_a_inv t s i h Undo x 0 ok r (root s)); auto|]. destruct (parent t h) eqn:P; [|discriminate]. injection H as <-. eapply undo_inv; eauto.
  - destruct (ok_top _ _ _ _ _ I N) as [O [T C]]. destruct c; cbn [dep] in H.
    + destruct (parent t h) eqn:P; injection H as <-; [eapply dload_inv; eauto; congruence|]. eapply droot_inv; eauto.
    + destruct O as [[O1 O2] OK]. injection H as <-. destruct (veqb (val s h) x) eqn:V; [|eapply dagain_inv; eauto]. apply veqb_eq in V. destruct (Z.eqb_spec (fst x) 1); [|eapply ddec_inv; eauto]. destruct (parent t h) eqn:P; [|congruence]. eapply dlast_inv; eauto.
Qed.
Lemma reach_inv : forall t k s, wf t -> reach t k s -> Inv t s.
Proof. intros t k s WF R. induction R; [apply start_inv|]. eapply step_inv; eauto. Qed.
