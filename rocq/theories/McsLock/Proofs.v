From Coq Require Import List Bool Arith Lia.
From Verif.McsLock Require Import Spec Model.
Import ListNotations.
Ltac sf := cbn [tail next ok pcs arr ent setp] in *.

Ltac eqc x t N := let E := fresh in destruct (Nat.eqb_spec x t) as [E|N]; [subst x|].
Lemma upd_same : forall A (f : nat -> A) i x, upd f i x i = x.
Proof. intros. unfold upd. now rewrite Nat.eqb_refl. Qed.
Lemma upd_other : forall A (f : nat -> A) i j x, j <> i -> upd f i x j = f j.
Proof. intros A f i j x N. unfold upd. destruct (Nat.eqb_spec j i); [contradiction|reflexivity]. Qed.

(** between predecessor a and successor b of the queue *)
Definition lnk (k : kind) (s : st) (a b : nat) : Prop :=
  ok s b = false /\
  ((pcs s b = Link a /\ next s a = None) \/
   (pcs s b = Wait /\ (next s a = Some b \/ (k = Block /\ pcs s a = Grant b /\ next s a = None)))).
Fixpoint chain (k : kind) (s : st) (Q : list nat) : Prop :=
  match Q with
  | [] => True
  | a :: r => match r with [] => next s a = None | b :: _ => lnk k s a b end /\ chain k s r
  end.
Definition idle (p : pc) : bool := match p with Idle | Start => true | _ => false end.
Definition second (Q : list nat) : option nat := match Q with _ :: b :: _ => Some b | _ => None end.
Definition headok (k : kind) (s : st) (h : nat) (Q : list nat) : Prop :=
  match pcs s h with
  | Wait => ok s h = true
  | Hold | Cas => ok s h = match k with Block => false | _ => ok s h end
  | Succ => second Q <> None /\ ok s h = match k with Block => false | _ => ok s h end
  | Clear r => k = Block /\ second Q = Some r /\ next s h = Some r /\ ok s h = false
  | Grant r => second Q = Some r /\ (exists b, pcs s r = b /\ b = Wait) /\ match k with Block => ok s h = false /\ next s h = None | _ => next s h = Some r end
  | _ => False
  end.
Definition entered (p : pc) : bool := match p with Hold | Cas | Succ | Clear _ | Grant _ => true | _ => false end.
Definition fresh (k : kind) (s : st) (t : nat) : Prop :=
  match k with
  | Block => next s t = None /\ ok s t = false
  | _ => pcs s t = Start -> next s t = None /\ ok s t = false
  end.
Definition InvQ (k : kind) (s : st) (Q D : list nat) : Prop :=
  NoDup Q /\ (forall t, In t Q <-> idle (pcs s t) = false) /\ tail s = match Q with [] => None | a :: r => Some (last r a) end /\
  chain k s Q /\ match Q with [] => True | h :: _ => headok k s h Q end /\
  (forall t, idle (pcs s t) = true -> fresh k s t) /\
  arr s = D ++ Q /\ ent s = D ++ match Q with h :: _ => if entered (pcs s h) then [h] else [] | [] => [] end.
Definition Inv (k : kind) (s : st) : Prop := exists Q D, InvQ k s Q D.

Lemma chain_cons2 : forall k s a b r, lnk k s a b -> chain k s (b :: r) -> chain k s (a :: b :: r).
Proof. intros. split; assumption. Qed.
Lemma chain_cons2' : forall k s a b r, chain k s (a :: b :: r) -> lnk k s a b /\ chain k s (b :: r).
Proof. intros k s a b r [A B]. split; assumption. Qed.
(** [chain] only looks at the members. *)
Lemma chain_ext : forall k s s' Q, chain k s Q -> (forall x, In x Q -> next s' x = next s x /\ pcs s' x = pcs s x /\ ok s' x = ok s x) -> chain k s' Q.
Proof.
  induction Q as [|a r IH]; intros C E; [exact I|]. cbn [chain] in *. destruct C as [C R]. split; [|apply IH; auto using in_cons].
  destruct (E a (or_introl eq_refl)) as (E1 & E2 & _). destruct r as [|b r']; [congruence|].
  destruct (E b (or_intror (or_introl eq_refl))) as (_ & F2 & F3). unfold lnk in *. now rewrite E1, E2, F2, F3.
Qed.
Lemma last_snoc : forall (l : list nat) a x, last (l ++ [x]) a = x.
Proof. induction l as [|b l IH]; intros; [reflexivity|]. cbn [app]. destruct (l ++ [x]) eqn:E; [destruct l; discriminate|]. rewrite <- E. cbn [last]. rewrite E. rewrite <- E. apply IH. Qed.
Lemma last_cons : forall (Q : list nat) a b, last (b :: Q) a = last Q b.
Proof. induction Q as [|c Q IH]; intros a b; [reflexivity|]. rewrite (IH b c). change (last (b :: c :: Q) a) with (last (c :: Q) a). apply IH. Qed.
Lemma last_in : forall (Q : list nat) b, In (last Q b) (b :: Q).
Proof. induction Q as [|c Q IH]; intros b; [now left|]. rewrite last_cons. right. apply IH. Qed.
Lemma nodup_snoc : forall (l : list nat) x, NoDup l -> ~ In x l -> NoDup (l ++ [x]).
Proof.
  induction l as [|y l IH]; intros x H N; cbn; [constructor; [intros []|constructor]|].
  inversion H; subst. constructor; [|apply IH; [assumption|]].
  - rewrite in_app_iff. cbn. intros [X|[X|[]]]; [contradiction|]. apply N. now left.
  - intros X. apply N. now right.
Qed.
(** Every non-head member has a predecessor and is linking or waiting. *)
Lemma chain_mid : forall k s Q a x, chain k s (a :: Q) -> In x Q -> exists p, lnk k s p x /\ In p (a :: Q).
Proof.
  induction Q as [|b Q IH]; intros a x C H; [destruct H|]. destruct C as [C R]. destruct H as [->|H].
  - exists a. split; [exact C|now left].
  - destruct (IH b x R H) as (p & L & P). exists p. split; [exact L|now right].
Qed.
Lemma mid_pc : forall k s p x, lnk k s p x -> (pcs s x = Link p \/ pcs s x = Wait) /\ ok s x = false.
Proof. intros k s p x [O [[A _]|[A _]]]; auto. Qed.
(** adding x behind the last *)
Lemma chain_snoc : forall k s Q a x, chain k s (a :: Q) -> pcs s x = Link (last Q a) -> ok s x = false -> next s x = None -> chain k s ((a :: Q) ++ [x]).
Proof.
  induction Q as [|b Q IH]; intros a x C P O N.
  - cbn in *. destruct C as [C _]. split; [|split; [exact N|exact I]]. split; [exact O|]. left. auto.
  - destruct C as [C R]. change ((a :: b :: Q) ++ [x]) with (a :: ((b :: Q) ++ [x])). split; [exact C|]. apply IH; auto.
    now rewrite P, last_cons.
Qed.

Lemma link_chain : forall k s Q a t p, chain k s (a :: Q) -> NoDup (a :: Q) -> In t Q -> pcs s t = Link p -> idle (pcs s a) = false ->
  chain k (S_ (tail s) (upd (next s) p (Some t)) (ok s) (upd (pcs s) t Wait) (arr s) (ent s)) (a :: Q) /\ In p (a :: Q) /\ next s p = None.
Proof.
  induction Q as [|b Q IH]; intros a t p C ND H P IA; [destruct H|]. inversion ND as [|? ? NA ND']; subst. inversion ND' as [|? ? NB ND'']; subst. destruct C as [C R].
  assert (AB : a <> b) by (intros ->; apply NA; now left).
  destruct (Nat.eq_dec t b) as [->|TB].
  - destruct C as [O [[A B]|[A _]]]; [|congruence]. rewrite P in A. inversion A; subst p. split; [|split; [now left|exact B]].
    cbn [chain]. split.
    + unfold lnk; sf. rewrite !upd_same. split; [exact O|]. right. auto.
    + destruct Q as [|c Q].
      * destruct R as [R _]. split; [sf; now rewrite upd_other by congruence|exact I].
      * destruct R as [R1 R2]. split.
        -- assert (c <> b) by (intros ->; apply NB; now left). destruct R1 as [O1 R1]. unfold lnk; sf. rewrite !(upd_other _ _ b c), !(upd_other _ _ a b) by congruence. split; [exact O1|].
           destruct R1 as [R1|[R1 [R3|[_ [R3 _]]]]]; [auto|auto|]. congruence.
        -- apply (chain_ext k s _ _ R2). intros x X; sf. assert (x <> a) by (intros ->; apply NA; right; exact X). assert (x <> b) by (intros ->; contradiction).
           rewrite !upd_other by assumption. auto.
  - destruct H as [->|H]; [congruence|].
    assert (IB : idle (pcs s b) = false) by (destruct C as [_ [[A _]|[A _]]]; rewrite A; reflexivity).
    destruct (IH b t p R ND' H P IB) as (C' & PI & NP). split; [|split; [now right|exact NP]].
    cbn [chain]. split; [|exact C']. destruct C as [O C]. unfold lnk; sf. rewrite !(upd_other _ _ t b) by congruence.
    assert (TA : a <> t) by (intros ->; apply NA; now right). rewrite !(upd_other _ _ t a) by exact TA.
    assert (PA : a <> p) by (intros ->; contradiction). rewrite upd_other by exact PA. auto.
Qed.

Lemma notin_ext : forall (Q : list nat) t x, ~ In t Q -> In x Q -> x <> t.
Proof. intros Q t x N I ->. contradiction. Qed.

Lemma step_inv : forall k s t s', k <> SpinReuse -> Inv k s -> step k s t = Some s' -> Inv k s'.
Proof.
  intros k s t s' KR (Q & D & ND & QI & TL & CH & HD & FR & FA & FE) H. unfold step in H.
  assert (QT := QI t). destruct (pcs s t) as [| |p| | | | |r|r] eqn:K; cbn [idle] in QT.
  - (* Idle *) inversion H; subst; clear H. exists Q, D. assert (NT : ~ In t Q) by (rewrite QT; discriminate).
    set (s1 := S_ _ _ _ _ _ _).
    assert (E : forall x, x <> t -> next s1 x = next s x /\ pcs s1 x = pcs s x /\ ok s1 x = ok s x).
    { intros x N. unfold s1; sf. destruct k; rewrite ?upd_other by exact N; auto. }
    assert (EQ : forall x, In x Q -> next s1 x = next s x /\ pcs s1 x = pcs s x /\ ok s1 x = ok s x) by (intros x X; apply E; eapply notin_ext; eauto).
    assert (P1 : pcs s1 t = Start) by (unfold s1; sf; apply upd_same).
    split; [exact ND|]. split.
    { intros x. destruct (Nat.eq_dec x t) as [->|N]; [rewrite P1; cbn; tauto|]. rewrite (proj1 (proj2 (E x N))). apply QI. }
    split; [exact TL|]. split; [apply (chain_ext k s); assumption|]. split.
    { destruct Q as [|h Q]; [exact I|]. destruct (EQ h (or_introl eq_refl)) as (E1 & E2 & E3). unfold headok in *. rewrite E1, E2, E3. destruct (pcs s h); auto.
      destruct HD as (A & B & C). split; [exact A|]. split; [|exact C]. destruct B as (b & B1 & B2). exists b. split; [|exact B2].
      destruct Q as [|c Q]; [discriminate|]. inversion A; subst r. rewrite (proj1 (proj2 (EQ c (or_intror (or_introl eq_refl))))). exact B1. }
    split.
    { intros x X. destruct (Nat.eq_dec x t) as [->|N].
      - specialize (FR t). rewrite K in FR. specialize (FR eq_refl). unfold fresh in *. unfold s1; sf. destruct k; [exact FR|intros _; now rewrite !upd_same|congruence].
      - destruct (E x N) as (E1 & E2 & E3). rewrite E2 in X. specialize (FR x X). unfold fresh in *. rewrite E1, E2, E3. exact FR. }
    split; [exact FA|]. unfold s1 at 1; sf. rewrite FE. f_equal. destruct Q as [|h Q]; [reflexivity|]. now rewrite (proj1 (proj2 (EQ h (or_introl eq_refl)))).
  - (* Start *) assert (NT : ~ In t Q) by (rewrite QT; discriminate).
    assert (FT : next s t = None /\ ok s t = false) by (specialize (FR t); rewrite K in FR; specialize (FR eq_refl); unfold fresh in FR; destruct k; [exact FR|now apply FR|congruence]). destruct FT as [F1 F2].
    destruct Q as [|h Q].
    + rewrite TL in H. inversion H; subst; clear H. exists [t], D. split; [constructor; [intros []|constructor]|]. split.
      { intros x. sf. unfold upd. eqc x t N; [cbn; tauto|]. rewrite <- QI. cbn. intuition congruence. }
      split; [reflexivity|]. split; [cbn; auto|]. split; [unfold headok; sf; rewrite upd_same; now destruct k|]. split.
      { intros x X. sf. unfold upd in X. eqc x t N; [discriminate|]. specialize (FR x X). unfold fresh in *; sf. now rewrite upd_other by exact N. }
      sf. rewrite upd_same. cbn. rewrite FA, FE, !app_nil_r. auto.
    + rewrite TL in H. inversion H; subst; clear H. exists ((h :: Q) ++ [t]), D. split; [now apply nodup_snoc|]. 
      set (s1 := S_ _ _ _ _ _ _).
      assert (E : forall x, x <> t -> next s1 x = next s x /\ pcs s1 x = pcs s x /\ ok s1 x = ok s x) by (intros x N; unfold s1; sf; rewrite upd_other by exact N; auto).
      assert (EQ : forall x, In x (h :: Q) -> next s1 x = next s x /\ pcs s1 x = pcs s x /\ ok s1 x = ok s x) by (intros x X; apply E; eapply notin_ext; eauto).
      assert (P1 : pcs s1 t = Link (last Q h)) by (unfold s1; sf; apply upd_same).
      assert (HT : h <> t) by (intros ->; apply NT; now left).
      split.
      { intros x. rewrite in_app_iff. destruct (Nat.eq_dec x t) as [->|N]; [rewrite P1; cbn; tauto|]. rewrite (proj1 (proj2 (E x N))), <- QI. cbn. intuition congruence. }
      split; [unfold s1; sf; cbn [app]; now rewrite last_snoc|]. split.
      { apply chain_snoc; auto. apply (chain_ext k s); assumption. }
      split.
      { cbn [app]. destruct (EQ h (or_introl eq_refl)) as (E1 & E2 & E3). unfold headok in *. rewrite E1, E2, E3. destruct (pcs s h) eqn:PH; auto.
        - destruct HD as [A B]. split; [|exact B]. destruct Q; cbn in *; [discriminate|exact A].
        - destruct HD as (A & B & C). split; [exact A|]. split; [|exact C]. destruct Q; [discriminate|exact B].
        - destruct HD as (A & B & C). destruct Q as [|c Q]; [discriminate|]. split; [exact A|]. split; [|exact C]. inversion A; subst r.
          rewrite (proj1 (proj2 (EQ c (or_intror (or_introl eq_refl))))). exact B. }
      split.
      { intros x X. destruct (Nat.eq_dec x t) as [->|N]; [rewrite P1 in X; discriminate|]. destruct (E x N) as (E1 & E2 & E3). rewrite E2 in X. specialize (FR x X). unfold fresh in *. rewrite E1, E2, E3. exact FR. }
      split; [unfold s1; sf; rewrite FA; now rewrite app_assoc|]. unfold s1 at 1; sf. rewrite FE. f_equal. cbn [app]. now rewrite (proj1 (proj2 (EQ h (or_introl eq_refl)))).
  - (* Link *) inversion H; subst; clear H. destruct Q as [|h Q]; [destruct (proj2 QT eq_refl)|].
    assert (HT : t <> h) by (intros ->; unfold headok in HD; rewrite K in HD; exact HD).
    assert (TQ : In t Q) by (destruct (proj2 QT eq_refl) as [X|X]; [congruence|exact X]).
    assert (IH : idle (pcs s h) = false) by (apply QI; now left).
    destruct (link_chain k s Q h t p CH ND TQ K IH) as (C' & PI & NP).
    exists (h :: Q), D. split; [exact ND|]. set (s1 := S_ _ _ _ _ _ _) in *. split.
    { intros x. rewrite QI. unfold s1; sf. unfold upd. eqc x t N; [rewrite K; cbn; tauto|reflexivity]. }
    split; [exact TL|]. split; [exact C'|]. split.
    { unfold headok in *. unfold s1; sf. rewrite (upd_other _ _ t h) by congruence. destruct (pcs s h) eqn:PH; auto.
      - destruct HD as (A & B & C & E). split; [exact A|]. split; [exact B|]. split; [|exact E]. rewrite upd_other; [exact C|]. intros ->. congruence.
      - destruct HD as (A & (b & B1 & B2) & C). split; [exact A|]. destruct (Nat.eq_dec r t) as [->|N]; [subst b; congruence|]. split; [exists b; rewrite upd_other by exact N; auto|].
        destruct k; [destruct C as [C1 C2]; split; [exact C1|]|rewrite upd_other; [exact C|intros ->; congruence]|congruence].
        rewrite upd_other; [exact C2|]. intros E0. subst p.
        (* t's predecessor would be h, but h's successor is r *)
        destruct Q as [|c Q]; [discriminate|]. inversion A; subst c.
        destruct CH as [CH1 CH2]. destruct TQ as [->|TQ]; [congruence|].
        destruct (chain_mid Block s Q r t CH2 TQ) as (p' & L & P'). destruct L as [_ [[L _]|[L _]]]; [|congruence]. rewrite K in L. inversion L; subst p'.
        inversion ND; subst. contradiction. }
    split.
    { intros x X. unfold s1 in *; sf. unfold upd in X. eqc x t N; [discriminate|]. specialize (FR x X). unfold fresh in *; sf.
      assert (x <> p) by (intros ->; apply QI in PI; congruence). rewrite !upd_other by assumption. exact FR. }
    split; [exact FA|]. unfold s1; sf. rewrite upd_other by congruence. exact FE.
  - (* Wait *) destruct (ok s t) eqn:OK; inversion H; subst; clear H; [|exists Q, D; repeat (split; [assumption|]); assumption].
    destruct Q as [|h Q]; [destruct (proj2 QT eq_refl)|].
    assert (HT : h = t).
    { destruct (proj2 QT eq_refl) as [X|X]; [exact X|]. destruct (chain_mid k s Q h t CH X) as (p & L & _). destruct (mid_pc _ _ _ _ L) as [_ L2]. congruence. }
    subst h. exists (t :: Q), D. split; [exact ND|]. set (s1 := S_ _ _ _ _ _ _).
    inversion ND as [|? ? NT ND']; subst.
    assert (E : forall x, x <> t -> next s1 x = next s x /\ pcs s1 x = pcs s x /\ ok s1 x = ok s x) by (intros x N; unfold s1; sf; destruct k; rewrite ?upd_other by exact N; auto).
    assert (EQ : forall x, In x Q -> next s1 x = next s x /\ pcs s1 x = pcs s x /\ ok s1 x = ok s x) by (intros x X; apply E; eapply notin_ext; eauto).
    split.
    { intros x. rewrite QI. destruct (Nat.eq_dec x t) as [->|N]; [|now rewrite (proj1 (proj2 (E x N)))]. unfold s1; sf. rewrite upd_same, K. cbn. tauto. }
    split; [exact TL|]. split.
    { cbn [chain] in *. destruct CH as [C1 C2]. split; [|apply (chain_ext k s); assumption]. destruct Q as [|b Q]; [exact C1|]. destruct C1 as [O C1]. destruct (EQ b (or_introl eq_refl)) as (_ & E2 & E3).
      unfold lnk. rewrite E2, E3. unfold s1; sf. split; [exact O|]. destruct C1 as [C1|[C1 [C3|[_ [C3 _]]]]]; [auto|auto|congruence]. }
    split; [unfold headok, s1; sf; rewrite upd_same; destruct k; [now rewrite upd_same|reflexivity|reflexivity]|]. split.
    { intros x X. destruct (Nat.eq_dec x t) as [->|N]; [unfold s1 in X; sf; rewrite upd_same in X; discriminate|]. destruct (E x N) as (E1 & E2 & E3). rewrite E2 in X. specialize (FR x X). unfold fresh in *. rewrite E1, E2, E3. exact FR. }
    split; [exact FA|]. unfold s1; sf. rewrite upd_same. rewrite FE, K. cbn. now rewrite app_nil_r.
  - (* Hold *) inversion H; subst; clear H. destruct Q as [|h Q]; [destruct (proj2 QT eq_refl)|].
    assert (HT : h = t).
    { destruct (proj2 QT eq_refl) as [X|X]; [exact X|]. destruct (chain_mid k s Q h t CH X) as (p & L & _). destruct (mid_pc _ _ _ _ L) as [[L1|L1] _]; congruence. }
    subst h. exists (t :: Q), D. inversion ND as [|? ? NT ND']; subst. split; [exact ND|]. split.
    { intros x. rewrite QI. sf. unfold upd. eqc x t N; [rewrite K; cbn; tauto|reflexivity]. }
    split; [exact TL|]. split.
    { cbn [chain] in *. destruct CH as [C1 C2]. split; [|apply (chain_ext k s); [assumption|intros x X; sf; rewrite upd_other by (eapply notin_ext; eauto); auto]].
      destruct Q as [|b Q]; [exact C1|]. assert (b <> t) by (intros ->; apply NT; now left). destruct C1 as [O C1]. unfold lnk; sf. rewrite upd_other by assumption. split; [exact O|].
      destruct C1 as [C1|[C1 [C3|[_ [C3 _]]]]]; [auto|auto|congruence]. }
    split; [unfold headok in *; rewrite K in HD; sf; rewrite upd_same; exact HD|]. split.
    { intros x X. sf. unfold upd in X. eqc x t N; [discriminate|]. specialize (FR x X). unfold fresh in *; sf. now rewrite upd_other by exact N. }
    split; [exact FA|]. sf. rewrite upd_same. rewrite FE, K. reflexivity.
  - (* Cas *) destruct Q as [|h Q]; [destruct (proj2 QT eq_refl)|].
    assert (HT : h = t).
    { destruct (proj2 QT eq_refl) as [X|X]; [exact X|]. destruct (chain_mid k s Q h t CH X) as (p & L & _). destruct (mid_pc _ _ _ _ L) as [[L1|L1] _]; congruence. }
    subst h. inversion ND as [|? ? NT ND']; subst. rewrite TL in H. destruct (Nat.eqb_spec (last Q t) t) as [E|E]; inversion H; subst; clear H.
    + assert (QN : Q = []).
      { destruct Q as [|b Q]; [reflexivity|]. exfalso. apply NT. rewrite last_cons in E. rewrite <- E. apply last_in. }
      subst Q. exists [], (D ++ [t]). split; [constructor|]. split.
      { intros x. sf. unfold upd. eqc x t N; [cbn; intuition discriminate|]. rewrite <- QI. cbn. intuition congruence. }
      split; [reflexivity|]. split; [exact I|]. split; [exact I|]. split.
      { intros x X. sf. unfold upd in X. eqc x t N.
        - unfold headok in HD. rewrite K in HD. destruct CH as [C1 _]. unfold fresh; sf. destruct k; [auto|rewrite upd_same; discriminate|congruence].
        - specialize (FR x X). unfold fresh in *; sf. now rewrite upd_other by exact N. }
      sf. rewrite FA, FE, K, !app_nil_r. auto.
    + exists (t :: Q), D. split; [exact ND|]. split.
      { intros x. rewrite QI. sf. unfold upd. eqc x t N; [rewrite K; cbn; tauto|reflexivity]. }
      split; [exact TL|]. split.
      { cbn [chain] in *. destruct CH as [C1 C2]. split; [|apply (chain_ext k s); [assumption|intros x X; sf; rewrite upd_other by (eapply notin_ext; eauto); auto]].
        destruct Q as [|b Q]; [exact C1|]. assert (b <> t) by (intros ->; apply NT; now left). destruct C1 as [O C1]. unfold lnk; sf. rewrite upd_other by assumption. split; [exact O|].
        destruct C1 as [C1|[C1 [C3|[_ [C3 _]]]]]; [auto|auto|congruence]. }
      split; [unfold headok in *; rewrite K in HD; sf; rewrite upd_same; split; [destruct Q; [cbn in E; congruence|discriminate]|exact HD]|]. split.
      { intros x X. sf. unfold upd in X. eqc x t N; [discriminate|]. specialize (FR x X). unfold fresh in *; sf. now rewrite upd_other by exact N. }
      split; [exact FA|]. sf. rewrite upd_same. rewrite FE, K. reflexivity.
  - (* Succ *) destruct Q as [|h Q]; [destruct (proj2 QT eq_refl)|].
    assert (HT : h = t).
    { destruct (proj2 QT eq_refl) as [X|X]; [exact X|]. destruct (chain_mid k s Q h t CH X) as (p & L & _). destruct (mid_pc _ _ _ _ L) as [[L1|L1] _]; congruence. }
    subst h. inversion ND as [|? ? NT ND']; subst.
    destruct (next s t) as [r|] eqn:NX; inversion H; subst; clear H; [|exists (t :: Q), D; repeat (split; [assumption|]); assumption].
    destruct Q as [|b Q]; [destruct CH; congruence|]. apply chain_cons2' in CH. destruct CH as [C1 C2].
    assert (BT : b <> t) by (intros ->; apply NT; now left).
    assert (RB : r = b /\ pcs s b = Wait /\ ok s b = false) by (destruct C1 as [O [[C1 C3]|[C1 [C3|[_ [C3 _]]]]]]; [congruence|split; [congruence|auto]|congruence]). destruct RB as (-> & PB & OB).
    unfold headok in HD. rewrite K in HD. destruct HD as [_ HD].
    exists (t :: b :: Q), D. split; [exact ND|]. split.
    { intros x. rewrite QI. sf. unfold upd. eqc x t N; [rewrite K; destruct k; cbn; tauto|reflexivity]. }
    split; [exact TL|]. split.
    { apply chain_cons2.
      - unfold lnk; sf. rewrite upd_other by exact BT. split; [exact OB|]. right. auto.
      - apply (chain_ext k s); [exact C2|]. intros x X; sf. rewrite upd_other by (eapply notin_ext; eauto). auto. }
    split; [unfold headok; sf; rewrite !upd_same; destruct k; cbn; rewrite ?upd_other by exact BT; eauto 8; congruence|]. split.
    { intros x X. sf. unfold upd in X. eqc x t N; [destruct k; discriminate|]. specialize (FR x X). unfold fresh in *; sf. now rewrite upd_other by exact N. }
    split; [exact FA|]. sf. rewrite upd_same. rewrite FE, K. destruct k; reflexivity.
  - (* Clear *) inversion H; subst; clear H. destruct Q as [|h Q]; [destruct (proj2 QT eq_refl)|].
    assert (HT : h = t).
    { destruct (proj2 QT eq_refl) as [X|X]; [exact X|]. destruct (chain_mid k s Q h t CH X) as (p & L & _). destruct (mid_pc _ _ _ _ L) as [[L1|L1] _]; congruence. }
    subst h. inversion ND as [|? ? NT ND']; subst. unfold headok in HD. rewrite K in HD. destruct HD as (KB & A & B & C). subst k.
    destruct Q as [|b Q]; [discriminate|]. inversion A; subst b. apply chain_cons2' in CH. destruct CH as [C1 C2].
    assert (BT : r <> t) by (intros ->; apply NT; now left).
    assert (PB : pcs s r = Wait /\ ok s r = false) by (destruct C1 as [O [[C1 C3]|[C1 _]]]; [congruence|auto]). destruct PB as [PB OB].
    exists (t :: r :: Q), D. split; [exact ND|]. split.
    { intros x. rewrite QI. sf. unfold upd. eqc x t N; [rewrite K; cbn; tauto|reflexivity]. }
    split; [exact TL|]. split.
    { apply chain_cons2.
      - unfold lnk; sf. rewrite !upd_same. rewrite upd_other by exact BT. split; [exact OB|]. right. split; [exact PB|]. right. auto.
      - apply (chain_ext Block s); [exact C2|]. intros x X; sf. rewrite !upd_other by (eapply notin_ext; eauto). auto. }
    split; [unfold headok; sf; rewrite !upd_same; rewrite upd_other by exact BT; cbn; eauto 8|]. split.
    { intros x X. sf. unfold upd in X. eqc x t N; [discriminate|]. specialize (FR x X). unfold fresh in *; sf. now rewrite upd_other by exact N. }
    split; [exact FA|]. sf. rewrite upd_same. rewrite FE, K. reflexivity.
  - (* Grant *) inversion H; subst; clear H. destruct Q as [|h Q]; [destruct (proj2 QT eq_refl)|].
    assert (HT : h = t).
    { destruct (proj2 QT eq_refl) as [X|X]; [exact X|]. destruct (chain_mid k s Q h t CH X) as (p & L & _). destruct (mid_pc _ _ _ _ L) as [[L1|L1] _]; congruence. }
    subst h. inversion ND as [|? ? NT ND']; subst. unfold headok in HD. rewrite K in HD. destruct HD as (A & (b0 & B1 & B2) & C). rewrite B2 in B1. clear B2.
    destruct Q as [|b Q]; [discriminate|]. inversion A; subst b. apply chain_cons2' in CH. destruct CH as [C1 C2].
    assert (BT : r <> t) by (intros ->; apply NT; now left).
    inversion ND' as [|? ? NR ND'']; subst.
    exists (r :: Q), (D ++ [t]). split; [exact ND'|]. set (s1 := S_ _ _ _ _ _ _). split.
    { intros x. unfold s1; sf. unfold upd. eqc x t N; [cbn [idle]; split; [intros X; contradiction|discriminate]|]. rewrite <- QI. cbn. intuition congruence. }
    split; [unfold s1; sf; now rewrite TL, last_cons|].
    assert (E : forall x, In x Q -> next s1 x = next s x /\ pcs s1 x = pcs s x /\ ok s1 x = ok s x).
    { intros x X. assert (x <> t) by (intros ->; apply NT; now right). assert (x <> r) by (intros ->; contradiction). unfold s1; sf. rewrite !upd_other by assumption. auto. }
    split.
    { cbn [chain] in *. destruct C2 as [C2 C3]. split; [|apply (chain_ext k s); assumption]. destruct Q as [|c Q]; [exact C2|]. destruct (E c (or_introl eq_refl)) as (_ & E2 & E3).
      destruct C2 as [O C2]. unfold lnk. rewrite E2, E3. unfold s1; sf. rewrite upd_other by exact BT. auto. }
    split; [unfold headok, s1; sf; rewrite (upd_other _ _ t r), B1 by exact BT; apply upd_same|]. split.
    { intros x X. unfold s1 in *; sf. unfold upd in X. eqc x t N.
      - unfold fresh; sf. destruct k; [destruct C as [C4 C5]; rewrite upd_other by auto; auto|rewrite upd_same; discriminate|congruence].
      - specialize (FR x X). assert (x <> r) by (intros ->; rewrite B1 in X; discriminate). unfold fresh in *; sf. rewrite !upd_other by assumption. exact FR. }
    unfold s1; sf. rewrite FA, FE, K, upd_other, B1 by exact BT. cbn. rewrite <- app_assoc, app_nil_r. auto.
Qed.
Lemma reach_inv : forall k s, k <> SpinReuse -> reach k s -> Inv k s.
Proof.
  intros k s KR H. induction H; [|eapply step_inv; eauto]. exists [], []. unfold InvQ, init; sf. split; [constructor|]. split; [intros t; cbn; intuition discriminate|].
  split; [reflexivity|]. split; [exact I|]. split; [exact I|]. split; [intros t _; destruct k; cbn; auto|]. auto.
Qed.

(** With reused spin nodes entry is still exclusive: one token at a time. *)
Definition tok (s : st) (t : nat) : bool := match pcs s t with Idle => false | Start | Link _ | Wait => ok s t | _ => true end.
Definition TInv (s : st) : Prop := (tail s = None -> forall t, tok s t = false) /\ (forall t u, tok s t = true -> tok s u = true -> t = u).
Lemma tok_eq : forall s s' u, pcs s' u = pcs s u -> ok s' u = ok s u -> tok s' u = tok s u.
Proof. intros s s' u A B. unfold tok. now rewrite A, B. Qed.
Lemma tinv_same : forall s s' t, TInv s -> (forall u, u <> t -> tok s' u = true -> tok s u = true) -> (tok s' t = true -> tok s t = true) -> (tail s' = None -> tail s = None) -> TInv s'.
Proof.
  intros s s' t [A B] C D E.
  assert (F : forall u, tok s' u = true -> tok s u = true) by (intros u; destruct (Nat.eq_dec u t) as [->|N]; auto).
  split; [|auto]. intros N u. destruct (tok s' u) eqn:K; [|reflexivity]. apply F in K. rewrite (A (E N) u) in K. discriminate.
Qed.
Lemma tstep : forall s t s', TInv s -> step SpinReuse s t = Some s' -> TInv s'.
Proof.
  intros s t s' I H. unfold step in H. destruct (pcs s t) as [| |p| | | | |r|r] eqn:K.
  - inversion H; subst; clear H. apply (tinv_same s _ t I); sf; auto; unfold tok; sf; [intros u N; now rewrite !upd_other|]. rewrite !upd_same. discriminate.
  - destruct (tail s) as [p|] eqn:T; inversion H; subst; clear H.
    + apply (tinv_same s _ t I); sf; [intros u N; unfold tok; sf; now rewrite !upd_other|unfold tok; sf; now rewrite upd_same, K|discriminate].
    + destruct I as [A B]. split; [discriminate|]. assert (F : forall u, u <> t -> tok (S_ (Some t) (next s) (ok s) (upd (pcs s) t Hold) (arr s ++ [t]) (ent s ++ [t])) u = false).
      { intros u N. rewrite <- (A T u). unfold tok; sf. now rewrite upd_other. }
      intros x y X Y. destruct (Nat.eq_dec x t) as [->|N]; [|rewrite F in X by exact N; discriminate]. destruct (Nat.eq_dec y t) as [->|N]; [reflexivity|rewrite F in Y by exact N; discriminate].
  - inversion H; subst; clear H. apply (tinv_same s _ t I); sf; auto; unfold tok; sf; [intros u N; now rewrite !upd_other|]. now rewrite upd_same, K.
  - destruct (ok s t) eqn:O; inversion H; subst; clear H; [|exact I]. apply (tinv_same s _ t I); sf; auto; unfold tok; sf; [intros u N; now rewrite !upd_other|]. now rewrite K, O.
  - inversion H; subst; clear H. apply (tinv_same s _ t I); sf; auto; unfold tok; sf; [intros u N; now rewrite !upd_other|]. now rewrite K.
  - assert (F : TInv (setp s t Succ)) by (apply (tinv_same s _ t I); sf; auto; unfold tok; sf; [intros u N; now rewrite !upd_other|now rewrite K]).
    destruct (tail s) as [x|] eqn:T; [destruct (Nat.eqb_spec x t)|]; inversion H; subst; clear H; auto.
    destruct I as [A B]. assert (G : forall u, tok (S_ None (next s) (ok s) (upd (pcs s) t Idle) (arr s) (ent s)) u = false).
    { intros u. destruct (Nat.eq_dec u t) as [->|N]; [unfold tok; sf; now rewrite upd_same|]. destruct (tok s u) eqn:U.
      - exfalso. apply N, B; [exact U|]. unfold tok. now rewrite K.
      - rewrite <- U. unfold tok; sf. now rewrite upd_other. }
    split; [auto|]. intros x y X. rewrite G in X. discriminate.
  - destruct (next s t); inversion H; subst; clear H; [|exact I]. apply (tinv_same s _ t I); sf; auto; unfold tok; sf; [intros u N; now rewrite !upd_other|]. now rewrite K.
  - inversion H; subst; clear H. apply (tinv_same s _ t I); sf; auto; unfold tok; sf; [intros u N; now rewrite !upd_other|]. now rewrite K.
  - inversion H; subst; clear H. destruct I as [A B]. assert (KT : tok s t = true) by (unfold tok; now rewrite K).
    assert (G : forall u, tok (S_ (tail s) (next s) (upd (ok s) r true) (upd (pcs s) t Idle) (arr s) (ent s)) u = true -> u = r).
    { intros u X. destruct (Nat.eq_dec u r) as [E|N]; [exact E|]. exfalso. unfold tok in X; sf. destruct (Nat.eq_dec u t) as [->|N2]; [rewrite upd_same in X; discriminate|].
      rewrite upd_other in X by exact N2. rewrite upd_other in X by exact N. change (tok s u = true) in X. apply N2, B; assumption. }
    split; sf; [intros T; rewrite (A T t) in KT; discriminate|]. intros x y X Y. now rewrite (G x X), (G y Y).
Qed.
Lemma reach_tinv : forall s, reach SpinReuse s -> TInv s.
Proof. intros s H. induction H; [split; [reflexivity|intros t u X; discriminate]|eapply tstep; eauto]. Qed.

Lemma holder_head : forall k s Q D t, InvQ k s Q D -> entered (pcs s t) = true -> exists r, Q = t :: r.
Proof.
  intros k s Q D t (ND & QI & TL & CH & _) H. assert (I : In t Q) by (apply QI; destruct (pcs s t); (discriminate || reflexivity)).
  destruct Q as [|h Q]; [destruct I|]. destruct I as [->|I]; [eauto|]. destruct (chain_mid k s Q h t CH I) as (p & L & _). destruct (mid_pc _ _ _ _ L) as [[L1|L1] _]; rewrite L1 in H; discriminate.
Qed.

(** composite lock *)
Definition own (z : st2) (t : nat) : bool := match ph z t with PRel | PHold => true | _ => false end.
Definition CInv (k : kind) (z : st2) : Prop :=
  reach k (inn z) /\
  (forall t, match ph z t with PIdle | PHold => pcs (inn z) t = Idle | PSet => pcs (inn z) t = Hold /\ held z = false | PRel => pcs (inn z) t = Idle \/ entered (pcs (inn z) t) = true | PAcq => True end) /\
  (forall t, own z t = true -> held z = true) /\ (forall t u, own z t = true -> own z u = true -> t = u) /\
  (held z = true -> exists t, own z t = true).
Lemma inner_other : forall k s t s' u, step k s t = Some s' -> u <> t -> pcs s' u = pcs s u.
Proof.
  intros k s t s' u H N. unfold step in H. destruct (pcs s t); repeat match type of H with context [match ?x with _ => _ end] => destruct x end;
    inversion H; subst; sf; unfold setp; sf; now rewrite ?upd_other by exact N.
Qed.
Lemma inner_rel : forall k s t s', step k s t = Some s' -> entered (pcs s t) = true -> pcs s' t = Idle \/ entered (pcs s' t) = true.
Proof.
  intros k s t s' H E. unfold step in H. destruct (pcs s t) eqn:K; try discriminate; repeat match type of H with context [match ?x with _ => _ end] => destruct x end;
    inversion H; subst; sf; unfold setp; sf; rewrite ?upd_same, ?K; cbn; auto.
Qed.
Lemma own_same : forall z z' t, own z' t = own z t -> (forall u, u <> t -> ph z' u = ph z u) -> forall u, own z' u = own z u.
Proof. intros z z' t A B u. destruct (Nat.eq_dec u t) as [->|N]; [exact A|]. unfold own. now rewrite B. Qed.
Lemma excl : forall k s t u, reach k s -> (k <> SpinReuse) -> entered (pcs s t) = true -> entered (pcs s u) = true -> t = u.
Proof.
  intros k s t u R KR A B. destruct (reach_inv k s KR R) as (Q & D & I). destruct (holder_head k s Q D t I A) as [x ->]. destruct (holder_head k s _ D u I B) as [y E]. congruence.
Qed.
Lemma cstep : forall k z t z', k <> SpinReuse -> CInv k z -> step2 k z t = Some z' -> CInv k z'.
Proof.
  intros k z t z' KR (R & P & O & U & HO) H. unfold step2 in H. assert (PT := P t).
  assert (IN : forall p i, step k (inn z) t = Some i -> (ph z t = PIdle /\ p = PAcq \/ ph z t = PAcq /\ p = PAcq \/ ph z t = PRel /\ p = PRel /\ pcs (inn z) t <> Idle) -> CInv k (S2 i (held z) (upd (ph z) t p))).
  { intros p i S C. assert (OS : forall u, own (S2 i (held z) (upd (ph z) t p)) u = own z u).
    { apply (own_same z _ t); [unfold own; cbn; rewrite upd_same; destruct C as [[-> ->]|[[-> ->]|[-> [-> _]]]]; reflexivity|]. intros u N. cbn. now rewrite upd_other. }
    split; [cbn; eapply r_step; eauto|]. split; [|split; [|split]]; cbn [inn held ph].
    - intros u. destruct (Nat.eq_dec u t) as [->|N].
      + rewrite upd_same. destruct C as [[_ ->]|[[_ ->]|[C [-> NI]]]]; auto. rewrite C in PT. destruct PT as [PT|PT]; [congruence|]. eapply inner_rel; eauto.
      + rewrite upd_other by exact N. rewrite (inner_other _ _ _ _ u S N). apply P.
    - intros u. rewrite OS. apply O.
    - intros u v. rewrite !OS. apply U.
    - intros X. destruct (HO X) as [u Y]. exists u. now rewrite OS. }
  destruct (ph z t) eqn:K.
  - destruct (step k (inn z) t) as [i|] eqn:S; inversion H; subst. apply IN; auto.
  - assert (S' : match pcs (inn z) t with Hold => True | _ => match step k (inn z) t with Some i => z' = S2 i (held z) (upd (ph z) t PAcq) | None => False end end)
      by (destruct (pcs (inn z) t); auto; destruct (step k (inn z) t); inversion H; auto).
    destruct (pcs (inn z) t) eqn:PC; try (destruct (step k (inn z) t) as [i|] eqn:S; [subst z'; apply IN; auto|contradiction]).
    inversion H; subst; clear H S'. destruct (held z) eqn:HE; [unfold CInv; rewrite HE; repeat (split; [assumption|]); assumption|].
    assert (OS : forall u, own (S2 (inn z) false (upd (ph z) t PSet)) u = own z u).
    { apply (own_same z _ t); [unfold own; cbn; now rewrite upd_same, K|]. intros u N. cbn. now rewrite upd_other. }
    split; [exact R|]. split; [|split; [|split]]; cbn [inn held ph].
    + intros u. destruct (Nat.eq_dec u t) as [->|N]; [rewrite upd_same; auto|]. rewrite upd_other by exact N. specialize (P u). destruct (ph z u); auto.
    + intros u. rewrite OS. intros X. apply O in X. congruence.
    + intros u v. rewrite !OS. apply U.
    + discriminate.
  - inversion H; subst; clear H. destruct PT as [PC HE]. assert (NO : forall u, own z u = false) by (intros u; destruct (own z u) eqn:X; [apply O in X; congruence|reflexivity]).
    assert (G : forall u, own (S2 (inn z) true (upd (ph z) t PRel)) u = true -> u = t).
    { intros u X. destruct (Nat.eq_dec u t) as [E|N]; [exact E|]. exfalso. unfold own in X; cbn in X. rewrite upd_other in X by exact N. change (own z u = true) in X. rewrite NO in X. discriminate. }
    split; [exact R|]. split; [|split; [|split]]; cbn [inn held ph].
    + intros u. destruct (Nat.eq_dec u t) as [->|N]; [rewrite upd_same, PC; auto|]. rewrite upd_other by exact N. specialize (P u). destruct (ph z u); auto.
      exfalso. destruct P as [P _]. apply N. apply (excl k (inn z)); auto; [now rewrite P|now rewrite PC].
    + reflexivity.
    + intros u v X Y. now rewrite (G u X), (G v Y).
    + intros _. exists t. unfold own; cbn. now rewrite upd_same.
  - assert (S' : match pcs (inn z) t with Idle => True | _ => match step k (inn z) t with Some i => z' = S2 i (held z) (upd (ph z) t PRel) | None => False end end)
      by (destruct (pcs (inn z) t); auto; destruct (step k (inn z) t); inversion H; auto).
    destruct (pcs (inn z) t) eqn:PC; try (destruct (step k (inn z) t) as [i|] eqn:S; [subst z'; apply IN; auto; right; right; repeat split; auto; congruence|contradiction]).
    inversion H; subst; clear H S'.
    assert (OS : forall u, own (S2 (inn z) (held z) (upd (ph z) t PHold)) u = own z u).
    { apply (own_same z _ t); [unfold own; cbn; now rewrite upd_same, K|]. intros u N. cbn. now rewrite upd_other. }
    split; [exact R|]. split; [|split; [|split]]; cbn [inn held ph].
    + intros u. destruct (Nat.eq_dec u t) as [->|N]; [rewrite upd_same; auto|]. rewrite upd_other by exact N. apply P.
    + intros u. rewrite OS. apply O.
    + intros u v. rewrite !OS. apply U.
    + intros X. destruct (HO X) as [u Y]. exists u. now rewrite OS.
  - inversion H; subst; clear H. assert (OT : own z t = true) by (unfold own; now rewrite K).
    assert (G : forall u, own (S2 (inn z) false (upd (ph z) t PIdle)) u = false).
    { intros u. destruct (Nat.eq_dec u t) as [->|N]; [unfold own; cbn; now rewrite upd_same|]. destruct (own z u) eqn:X; [exfalso; apply N, U; assumption|]. rewrite <- X. unfold own; cbn. now rewrite upd_other. }
    split; [exact R|]. split; [|split; [|split]]; cbn [inn held ph].
    + intros u. destruct (Nat.eq_dec u t) as [->|N]; [rewrite upd_same; exact PT|]. rewrite upd_other by exact N. specialize (P u). destruct (ph z u); auto. destruct P as [P1 P2]. auto.
    + intros u X. rewrite G in X. discriminate.
    + intros u v X. rewrite G in X. discriminate.
    + discriminate.
Qed.
Lemma reach_cinv : forall k z, k <> SpinReuse -> reach2 k z -> CInv k z.
Proof.
  intros k z KR H. induction H; [|eapply cstep; eauto]. split; [constructor|]. split; [intros; reflexivity|]. split; [intros t X; discriminate|]. split; [intros t u X; discriminate|discriminate].
Qed.
