From Coq Require Import List Bool Arith ZArith Lia ZifyBool.
From Verif.FutureRC Require Import Model Spec.
Import ListNotations.
Open Scope nat_scope.
Lemma upd_same : forall X (f : nat -> X) i x, upd f i x i = x.
Proof. intros. unfold upd. rewrite Nat.eqb_refl. auto. Qed.
Lemma upd_other : forall X (f : nat -> X) i x j, j <> i -> upd f i x j = f j.
Proof. intros. unfold upd. destruct (Nat.eqb_spec j i); congruence. Qed.
Definition refs (l : list (nat * nat)) (i : nat) : Z := Z.of_nat (count_occ Nat.eq_dec (map snd l) i).
Definition dels (p : pc) : option nat := match p with Del i | AsDel _ i _ => Some i | _ => None end.
Record Inv (ths : list nat) (s : state) : Prop := {
  v_keys : NoDup (map fst (hs s));
  v_cnt : forall i, cnt s i = refs (hs s) i;
  v_old : forall h i, In (h, i) (hs s) -> i < next s /\ ~ In i (freed s);
  v_freed : NoDup (freed s) /\ forall i, In i (freed s) -> i < next s;
  v_del : forall t i, dels (at_ s t) = Some i -> i < next s /\ ~ In i (freed s) /\ refs (hs s) i = 0%Z;
  v_one : forall t u i, dels (at_ s t) = Some i -> dels (at_ s u) = Some i -> t = u;
  v_who : forall i, i < next s -> ~ In i (freed s) -> refs (hs s) i = 0%Z -> exists t, dels (at_ s t) = Some i;
  v_read : forall t r, reads (at_ s t) r = true -> In r (map fst (hs s));
  v_write : forall t l, writes (at_ s t) l = true -> ~ In l (map fst (hs s)) /\ forall u, writes (at_ s u) l = true -> u = t;
  v_ths : forall t, ~ In t ths -> at_ s t = Rest;
  v_ok : fault s = false }.
Lemma refs_cons : forall h j l i, refs ((h, j) :: l) i = (refs l i + if Nat.eq_dec j i then 1 else 0)%Z.
Proof. intros. unfold refs. cbn [map snd count_occ]. destruct (Nat.eq_dec j i); lia. Qed.
Lemma refs_pos : forall l h i, In (h, i) l -> (0 < refs l i)%Z.
Proof.
  intros l h i H. unfold refs. assert (In i (map snd l)) as X by (apply in_map_iff; exists (h, i); auto). apply (count_occ_In Nat.eq_dec) in X. lia.
Qed.
Lemma allocated_iff : forall s i, allocated s i = true <-> i < next s /\ ~ In i (freed s).
Proof.
  intros s i. unfold allocated. rewrite andb_true_iff, Nat.ltb_lt, negb_true_iff. split; intros [A B]; split; auto.
  - intros C. rewrite (proj2 (existsb_exists _ _)) in B; [discriminate|]. exists i. rewrite Nat.eqb_refl. auto.
  - destruct (existsb (Nat.eqb i) (freed s)) eqn:E; auto. apply existsb_exists in E. destruct E as (x & X & Y). apply Nat.eqb_eq in Y. subst. contradiction.
Qed.
Lemma lookup_some : forall s h i, lookup s h = Some i -> In (h, i) (hs s).
Proof.
  intros s h i. unfold lookup. destruct (find _ _) as [[h' i']|] eqn:E; [|discriminate]. cbn. intros X. injection X as ->. apply find_some in E. destruct E as [A B]. cbn in B. apply Nat.eqb_eq in B. subst. auto.
Qed.
Lemma lookup_none : forall s h, lookup s h = None -> ~ In h (map fst (hs s)).
Proof.
  intros s h. unfold lookup. destruct (find _ _) as [e|] eqn:E; [discriminate|]. intros _ X. apply in_map_iff in X. destruct X as ([h' i'] & <- & X). pose proof (find_none _ _ E _ X) as Y. cbn in Y. rewrite Nat.eqb_refl in Y. discriminate.
Qed.
Definition dropl (l : list (nat * nat)) (h : nat) := filter (fun e => negb (fst e =? h)) l.
Lemma drop_notin : forall l h, ~ In h (map fst l) -> dropl l h = l.
Proof. induction l as [|[k j] l IH]; intros h H; auto. cbn [map fst In] in H. cbn [dropl filter fst]. fold (dropl l h). destruct (Nat.eqb_spec k h); [exfalso; auto|]. cbn [negb]. rewrite IH; auto. Qed.
Lemma drop_refs : forall l h i j, NoDup (map fst l) -> In (h, i) l -> refs (dropl l h) j = (refs l j - if Nat.eq_dec i j then 1 else 0)%Z.
Proof.
  induction l as [|[k m] l IH]; intros h i j N H; [destruct H|]. cbn [map fst] in N. inversion N as [|? ? N1 N2]; subst. cbn [dropl filter fst]. destruct (Nat.eqb_spec k h) as [->|D]; cbn [negb].
  - fold (dropl l h). rewrite drop_notin by auto. rewrite refs_cons. destruct H as [H|H]; [injection H as ->; lia|]. exfalso. apply N1. apply in_map_iff. exists (h, i). auto.
  - fold (dropl l h). rewrite !refs_cons. destruct H as [H|H]; [congruence|]. rewrite (IH h i j) by auto. lia.
Qed.
Lemma in_drop : forall l h k j, In (k, j) (dropl l h) <-> In (k, j) l /\ k <> h.
Proof. intros. unfold dropl. rewrite filter_In. cbn [fst]. rewrite negb_true_iff, Nat.eqb_neq. tauto. Qed.
Lemma drop_keys : forall l h k, In k (map fst (dropl l h)) <-> In k (map fst l) /\ k <> h.
Proof.
  intros. rewrite !in_map_iff. split.
  - intros ([a b] & <- & X). apply in_drop in X. cbn. split; [exists (a, b); tauto|tauto].
  - intros [([a b] & <- & X) Y]. exists (a, b). rewrite in_drop. auto.
Qed.
Lemma drop_nodup : forall l h, NoDup (map fst l) -> NoDup (map fst (dropl l h)).
Proof.
  induction l as [|[k m] l IH]; intros h N; cbn [dropl filter map fst]; auto. cbn [map fst] in N. inversion N; subst. fold (dropl l h). destruct (Nat.eqb_spec k h); cbn [negb map fst]; auto.
  constructor; auto. rewrite drop_keys. tauto.
Qed.
Lemma start_inv : forall ths, Inv ths start.
Proof.
  intros ths. constructor; unfold start; cbn [hs cnt next freed at_ fault map]; try (intros; cbn [In dels reads] in *; contradiction || discriminate || lia || auto; fail).
  - constructor.
  - split; [constructor|intros i []].
Qed.
Lemma used_false : forall ths s r, (forall t, ~ In t ths -> at_ s t = Rest) -> used ths s r = false -> forall t, reads (at_ s t) r = false.
Proof.
  intros ths s r T U t. destruct (in_dec Nat.eq_dec t ths) as [I|I]; [|rewrite T by auto; auto].
  destruct (reads (at_ s t) r) eqn:E; auto. unfold used in U. rewrite (proj2 (existsb_exists _ _)) in U; [discriminate|]. eauto.
Qed.
Ltac sf := cbn [hs cnt next freed at_ fault goto with_hs bad] in *.
Lemma refs_nonneg : forall l i, (0 <= refs l i)%Z.
Proof. intros. unfold refs. lia. Qed.
(** the handle leaves: the count goes down; the thread deletes if it was the last *)
Lemma leave_inv : forall ths s t h i p, Inv ths s -> In t ths -> at_ s t = Rest -> (forall u, reads (at_ s u) h = false) -> In (h, i) (hs s) ->
  (dels p = if (cnt s i =? 1)%Z then Some i else None) -> (forall r, reads p r = true -> r <> h /\ In r (map fst (hs s))) -> (forall l, writes p l = true -> l = h) ->
  Inv ths (S (dropl (hs s) h) (upd (cnt s) i (cnt s i + -1)%Z) (next s) (freed s) (upd (at_ s) t p) (fault s)).
Proof.
  intros ths s t h i p [K C O [F1 F2] D U W RD WR T B] IT E NU IN DP RP WP. destruct (O _ _ IN) as [I1 I2]. pose proof (drop_refs (hs s) h i) as DR.
  assert (ND : forall u, dels (at_ s u) <> Some i). { intros u X. destruct (D _ _ X) as (_ & _ & Z0). pose proof (refs_pos _ _ _ IN). lia. }
  assert (AT : forall u, u <> t -> upd (at_ s) t p u = at_ s u) by (intros; apply upd_other; auto). constructor; sf; auto.
  - apply drop_nodup; auto.
  - intros j. rewrite DR by auto. destruct (Nat.eq_dec i j) as [->|N]; [rewrite upd_same, C; lia|rewrite upd_other by auto; rewrite C; lia].
  - intros k j X. apply in_drop in X. apply (O k). tauto.
  - intros u j X. destruct (Nat.eq_dec u t) as [->|N].
    + rewrite upd_same, DP in X. destruct (Z.eqb_spec (cnt s i) 1) as [Y|Y]; [|discriminate]. injection X as <-. split; auto. split; auto. rewrite DR by auto. rewrite C in Y. destruct (Nat.eq_dec i i); lia.
    + rewrite AT in X by auto. destruct (D _ _ X) as (X1 & X2 & X3). split; auto. split; auto. rewrite DR by auto. destruct (Nat.eq_dec i j); [subst; exfalso; eapply ND; eauto|lia].
  - intros u v j X Y. destruct (Nat.eq_dec u t) as [->|N1], (Nat.eq_dec v t) as [->|N2]; auto; rewrite ?upd_same, ?AT in * by auto; eauto; rewrite DP in *; destruct (_ =? _)%Z; try discriminate.
    + injection X as <-. exfalso. eapply ND; eauto.
    + injection Y as <-. exfalso. eapply ND; eauto.
  - intros j J1 J2 J3. rewrite DR in J3 by auto. destruct (Nat.eq_dec i j) as [<-|N].
    + exists t. rewrite upd_same, DP. rewrite C, (proj2 (Z.eqb_eq _ _)) by lia. auto.
    + destruct (W j J1 J2) as [u X]; [lia|]. exists u. destruct (Nat.eq_dec u t) as [->|N1]; [rewrite E in X; discriminate|]. rewrite AT by auto. auto.
  - intros u r X. rewrite drop_keys. destruct (Nat.eq_dec u t) as [->|N]; [rewrite upd_same in X; destruct (RP _ X); auto|]. rewrite AT in X by auto. split; [eauto|]. intros ->. rewrite NU in X. discriminate.
  - intros u l X. rewrite drop_keys. destruct (Nat.eq_dec u t) as [->|N].
    + rewrite upd_same in X. apply WP in X. subst l. split; [tauto|]. intros v Y. destruct (Nat.eq_dec v t) as [->|N1]; auto. rewrite AT in Y by auto. exfalso. apply (proj1 (WR v h Y)). apply in_map_iff. exists (h, i). auto.
    + rewrite AT in X by auto. destruct (WR u l X) as [W1 W2]. split; [tauto|]. intros v Y. destruct (Nat.eq_dec v t) as [->|N1]; [|rewrite AT in Y by auto; auto]. rewrite upd_same in Y. apply WP in Y. subst l. exfalso. apply W1. apply in_map_iff. exists (h, i). auto.
  - intros u N. rewrite AT; auto. intros ->. contradiction.
Qed.
(** a handle arrives *)
Lemma arrive_inv : forall ths s t h i p, Inv ths s -> In t ths -> dels (at_ s t) = None -> dels p = None -> (forall r, reads p r = false) -> (forall l, writes p l = false) -> (forall u, u <> t -> writes (at_ s u) h = false) -> ~ In h (map fst (hs s)) -> (exists k, In (k, i) (hs s)) ->
  Inv ths (S ((h, i) :: hs s) (upd (cnt s) i (cnt s i + 1)%Z) (next s) (freed s) (upd (at_ s) t p) (fault s)).
Proof.
  intros ths s t h i p [K C O [F1 F2] D U W RD WR T B] IT DT DP RP WP WH NI [k IN]. destruct (O _ _ IN) as [I1 I2].
  assert (ND : forall u, dels (at_ s u) <> Some i). { intros u X. destruct (D _ _ X) as (_ & _ & Z0). pose proof (refs_pos _ _ _ IN). lia. }
  assert (AT : forall u, u <> t -> upd (at_ s) t p u = at_ s u) by (intros; apply upd_other; auto).
  assert (DD : forall u j, dels (upd (at_ s) t p u) = Some j -> dels (at_ s u) = Some j) by (intros u j X; destruct (Nat.eq_dec u t) as [->|N]; [rewrite upd_same in X; congruence|rewrite AT in X by auto; auto]).
  constructor; sf; auto.
  - cbn [map fst]. constructor; auto.
  - intros j. rewrite refs_cons. destruct (Nat.eq_dec i j) as [->|N]; [rewrite upd_same, C; lia|rewrite upd_other by auto; rewrite C; lia].
  - intros h' j [X|X]; [injection X as <- <-; auto|eauto].
  - intros u j X. apply DD in X. destruct (D _ _ X) as (X1 & X2 & X3). split; auto. split; auto. rewrite refs_cons. destruct (Nat.eq_dec i j); [subst; exfalso; eapply ND; eauto|lia].
  - intros u v j X Y. apply DD in X. apply DD in Y. eauto.
  - intros j J1 J2 J3. rewrite refs_cons in J3. pose proof (refs_nonneg (hs s) j). destruct (Nat.eq_dec i j) as [<-|N]; [lia|]. destruct (W j J1 J2) as [u X]; [lia|]. exists u.
    destruct (Nat.eq_dec u t) as [->|N1]; [congruence|]. rewrite AT by auto. auto.
  - intros u r X. cbn [map fst]. right. destruct (Nat.eq_dec u t) as [->|N]; [rewrite upd_same, RP in X; discriminate|]. rewrite AT in X by auto. eauto.
  - intros u l X. cbn [map fst]. destruct (Nat.eq_dec u t) as [->|N]; [rewrite upd_same, WP in X; discriminate|]. rewrite AT in X by auto. destruct (WR u l X) as [W1 W2]. split.
    + intros [<-|Y]; auto. rewrite WH in X by auto. discriminate.
    + intros v Y. destruct (Nat.eq_dec v t) as [->|N1]; [rewrite upd_same, WP in Y; discriminate|]. rewrite AT in Y by auto. auto.
  - intros u N. rewrite AT; auto. intros ->. contradiction.
Qed.
(** the deletion *)
Lemma delete_inv : forall ths s t i p, Inv ths s -> In t ths -> dels (at_ s t) = Some i -> dels p = None -> (forall r, reads p r = true -> reads (at_ s t) r = true) -> (forall l, writes p l = true -> writes (at_ s t) l = true) -> Inv ths (goto (delete s i) t p).
Proof.
  intros ths s t i p [K C O [F1 F2] D U W RD WR T B] IT DT DP RP WP. destruct (D _ _ DT) as (I1 & I2 & I3). unfold delete. rewrite (proj2 (allocated_iff s i)) by auto.
  assert (AT : forall u, u <> t -> upd (at_ s) t p u = at_ s u) by (intros; apply upd_other; auto).
  assert (DD : forall u j, dels (upd (at_ s) t p u) = Some j -> dels (at_ s u) = Some j /\ u <> t) by (intros u j X; destruct (Nat.eq_dec u t) as [->|N]; [rewrite upd_same in X; congruence|rewrite AT in X by auto; auto]).
  constructor; sf; auto.
  - intros h j X. destruct (O _ _ X) as [O1 O2]. split; auto. intros [->|Y]; auto. pose proof (refs_pos _ _ _ X). lia.
  - split; [constructor; auto|]. intros j [<-|X]; auto.
  - intros u j X. apply DD in X. destruct X as [X N]. destruct (D _ _ X) as (X1 & X2 & X3). split; auto. split; auto. intros [->|Y]; auto. apply N. eapply U; eauto.
  - intros u v j X Y. apply DD in X. apply DD in Y. eapply U; [apply X|apply Y].
  - intros j J1 J2 J3. destruct (W j J1) as [u X]; auto. { intros Y. apply J2. right. auto. } exists u. destruct (Nat.eq_dec u t) as [->|N1]; [exfalso; apply J2; left; congruence|]. rewrite AT by auto. auto.
  - intros u r X. destruct (Nat.eq_dec u t) as [->|N]; [rewrite upd_same in X; eauto|]. rewrite AT in X by auto. eauto.
  - assert (WW : forall u l, writes (upd (at_ s) t p u) l = true -> writes (at_ s u) l = true) by (intros u l X; destruct (Nat.eq_dec u t) as [->|N]; [rewrite upd_same in X; auto|rewrite AT in X by auto; auto]).
    intros u l X. destruct (WR u l (WW _ _ X)) as [W1 W2]. split; auto.
  - intros u N. rewrite AT; auto. intros ->. contradiction.
Qed.
Lemma new_inv : forall ths s h, Inv ths s -> ~ In h (map fst (hs s)) -> (forall u, writes (at_ s u) h = false) -> Inv ths (S ((h, next s) :: hs s) (upd (cnt s) (next s) 1%Z) (next s + 1) (freed s) (at_ s) (fault s)).
Proof.
  intros ths s h [K C O [F1 F2] D U W RD WR T B] NI WH.
  assert (NR : refs (hs s) (next s) = 0%Z).
  { unfold refs. rewrite (proj1 (count_occ_not_In Nat.eq_dec (map snd (hs s)) (next s))); auto. intros X. apply in_map_iff in X. destruct X as ([a b] & X & Y). cbn in X. subst. apply O in Y. lia. }
  constructor; sf; auto.
  - cbn [map fst]. constructor; auto.
  - intros j. rewrite refs_cons. destruct (Nat.eq_dec (next s) j) as [<-|N]; [rewrite upd_same, NR; lia|rewrite upd_other by auto; rewrite C; lia].
  - intros h' j [X|X]; [injection X as <- <-; split; [lia|]; intros Y; apply F2 in Y; lia|]. destruct (O _ _ X). split; [lia|auto].
  - split; auto. intros i X. apply F2 in X. lia.
  - intros u j X. destruct (D _ _ X) as (X1 & X2 & X3). split; [lia|]. split; auto. rewrite refs_cons. destruct (Nat.eq_dec (next s) j); lia.
  - intros j J1 J2 J3. rewrite refs_cons in J3. pose proof (refs_nonneg (hs s) j). destruct (Nat.eq_dec (next s) j); [lia|]. apply W; auto; lia.
  - intros u r X. cbn [map fst]. right. eauto.
  - intros u l X. destruct (WR u l X) as [W1 W2]. split; auto. cbn [map fst]. intros [<-|Y]; auto. rewrite WH in X. discriminate.
Qed.
Lemma exists_false : forall ths s h, Inv ths s -> exists_ ths s h = false -> ~ In h (map fst (hs s)) /\ forall t, writes (at_ s t) h = false.
Proof.
  intros ths s h I H. unfold exists_ in H. destruct (lookup s h) eqn:E; [discriminate|]. split; [apply lookup_none; auto|]. intros t.
  destruct (in_dec Nat.eq_dec t ths) as [X|X]; [|rewrite (v_ths _ _ I) by auto; auto]. destruct (writes (at_ s t) h) eqn:F; auto. rewrite (proj2 (existsb_exists _ _)) in H; [discriminate|]. eauto.
Qed.
Lemma key_in : forall (l : list (nat * nat)) h i, In (h, i) l -> In h (map fst l).
Proof. intros. apply in_map_iff. exists (h, i). auto. Qed.
Lemma nodup_key : forall (q : list (nat * nat)) h i j, NoDup (map fst q) -> In (h, i) q -> In (h, j) q -> i = j.
Proof.
  induction q as [|[a b] q IH]; intros h i j K L L2; [destruct L|]. cbn [map fst] in K. inversion K; subst.
  destruct L as [L|L], L2 as [L2|L2]; [congruence|..|eauto].
  - injection L as -> ->. exfalso. eauto using key_in.
  - injection L2 as -> ->. exfalso. eauto using key_in.
Qed.
Lemma used_inv : forall ths s h, Inv ths s -> used ths s h = false -> forall t, reads (at_ s t) h = false.
Proof. intros ths s h I U. apply (used_false ths); auto. apply v_ths; auto. Qed.
Lemma alloc_inv : forall ths s h i, Inv ths s -> In (h, i) (hs s) -> allocated s i = true.
Proof. intros ths s h i I X. apply allocated_iff. eapply v_old; eauto. Qed.
Lemma eq_inv : forall ths s s1, Inv ths s -> hs s1 = hs s -> cnt s1 = cnt s -> next s1 = next s -> freed s1 = freed s -> (forall t, at_ s1 t = at_ s t) -> fault s1 = fault s -> Inv ths s1.
Proof.
  intros ths s s1 [K C O F D U W RD WR T B] E1 E2 E3 E4 E5 E6. constructor; rewrite ?E1, ?E2, ?E3, ?E4, ?E6; auto.
  - intros t i. rewrite E5. apply D.
  - intros t u i. rewrite !E5. apply U.
  - intros i X Y Z0. destruct (W i X Y Z0) as [t H]. exists t. rewrite E5. auto.
  - intros t r. rewrite E5. apply RD.
  - intros t l. rewrite E5. intros X. destruct (WR t l X) as [W1 W2]. split; auto. intros u. rewrite E5. auto.
  - intros t. rewrite E5. apply T.
Qed.
Lemma rest_upd : forall s t, at_ s t = Rest -> forall u, at_ s u = upd (at_ s) t Rest u.
Proof. intros s t E u. destruct (Nat.eq_dec u t) as [->|N]; [rewrite upd_same; auto|rewrite upd_other; auto]. Qed.
Lemma step_inv : forall ths s t a s1, Inv ths s -> step ths s t a = Some s1 -> Inv ths s1.
Proof.
  intros ths s t a s1 I. unfold step. destruct (fault s || negb (existsb (Nat.eqb t) ths)) eqn:IT; [discriminate|]. apply orb_false_iff in IT. destruct IT as [_ IT]. apply negb_false_iff in IT.
  assert (In t ths) as TI. { apply existsb_exists in IT. destruct IT as (x & X & Y). apply Nat.eqb_eq in Y. subst; auto. } clear IT.
  destruct (at_ s t) eqn:E, a; try discriminate.
  - destruct (exists_ ths s h) eqn:X; [discriminate|]. intros H. injection H as <-. destruct (exists_false _ _ _ I X). apply new_inv; auto.
  - destruct (exists_ ths s to) eqn:X; [discriminate|]. destruct (lookup s from) as [i|] eqn:L; [|discriminate]. apply lookup_some in L. unfold add. rewrite (alloc_inv _ _ _ _ I L). intros H. injection H as <-. sf.
    destruct (exists_false _ _ _ I X). eapply eq_inv; [apply (arrive_inv ths s t to i Rest)|..]; sf; auto. + rewrite E; auto. + eauto. + apply rest_upd; auto.
  - destruct (used ths s h) eqn:X; [discriminate|]. destruct (lookup s h) as [i|] eqn:L; [|discriminate]. apply lookup_some in L. unfold add, allocated. sf. fold (allocated s i). rewrite (alloc_inv _ _ _ _ I L). intros H. injection H as <-.
    pose proof (used_inv _ _ _ I X) as NU. destruct (Z.eqb_spec (cnt s i) 1) as [Y|Y]; sf.
    + apply (leave_inv ths s t h i (Del i)); auto; [rewrite (proj2 (Z.eqb_eq _ _)) by auto; auto|discriminate|discriminate].
    + eapply eq_inv; [apply (leave_inv ths s t h i Rest)|..]; sf; auto; [rewrite (proj2 (Z.eqb_neq _ _)) by auto; auto|discriminate|discriminate|apply rest_upd; auto].
  - destruct (used ths s l) eqn:X; [discriminate|]. destruct (lookup s l) as [i|] eqn:L; [|discriminate]. destruct (lookup s r) as [j|] eqn:L2; [|discriminate]. apply lookup_some in L. apply lookup_some in L2.
    destruct (Nat.eqb_spec i j) as [Q|Q]; [intros H; injection H as <-; auto|]. unfold add, allocated. sf. fold (allocated s i). rewrite (alloc_inv _ _ _ _ I L). intros H. injection H as <-.
    pose proof (used_inv _ _ _ I X) as NU. sf. assert (r <> l) as RL. { intros ->. apply Q. eapply nodup_key; eauto using v_keys. }
    assert (forall r0, (r =? r0) = true -> r0 <> l /\ In r0 (map fst (hs s))) as RR. { intros r0 W. apply Nat.eqb_eq in W. subst r0. split; auto. eapply key_in; eauto. }
    assert (forall l0, (l =? l0) = true -> l0 = l) as LL by (intros l0 W; apply Nat.eqb_eq in W; auto).
    destruct (Z.eqb_spec (cnt s i) 1) as [Y|Y].
    + apply (leave_inv ths s t l i (AsDel l i r)); auto. rewrite (proj2 (Z.eqb_eq _ _)) by auto. auto.
    + apply (leave_inv ths s t l i (AsInc l r)); auto. rewrite (proj2 (Z.eqb_neq _ _)) by auto. auto.
  - intros H. injection H as <-. apply delete_inv; auto; [rewrite E; auto|discriminate|discriminate].
  - intros H. injection H as <-. apply delete_inv; auto; rewrite E; auto.
  - destruct (lookup s r) as [j|] eqn:L; [|discriminate]. apply lookup_some in L. unfold add. rewrite (alloc_inv _ _ _ _ I L). intros H. injection H as <-. sf.
    assert (writes (at_ s t) l = true) as WT by (rewrite E; cbn [writes]; apply Nat.eqb_refl). destruct (v_write _ _ I t l WT) as [W1 W2].
    apply (arrive_inv ths s t l j Rest); auto; [rewrite E; auto| |eauto].
    intros u N. destruct (writes (at_ s u) l) eqn:F; auto. exfalso. auto.
Qed.
Lemma reach_inv : forall ths s, reach ths s -> Inv ths s.
Proof. intros ths s H. induction H; [apply start_inv|eapply step_inv; eauto]. Qed.
