From Coq Require Import List Bool Arith ZArith Lia ZifyBool Sorted Permutation.
From Verif.SmallSort Require Model Proofs.
From Verif.MutexStmt Require Import Model Spec.
Import ListNotations.
Open Scope Z_scope.
Lemma locks_plain args : plain args -> exists ls, locks (flat args) = Some ls /\ args = map (fun p => Lk (fst p) (snd p)) ls.
Proof.
  intros P. assert (F : flat args = args).
  { unfold flat. destruct args as [|[t x|l] r]; [reflexivity| |inversion P; contradiction]. cbn [nth_error]. generalize (Lk t x :: r) as m; clear. induction m as [|a m IH]; cbn [map concat app]; congruence. }
  rewrite F; clear F; induction P as [|[t x|l] r H P IH]; cbn [locks]; [exists []; auto| |contradiction].
  destruct IH as (ls & -> & ->). exists ((t, x) :: ls); auto.
Qed.
Lemma find_type st ls t m : NoDup (map (fun p => st (snd p)) ls) -> In (t, m) (map (fun p => (fst p, st (snd p))) ls) -> exists x, find (fun p : nat * nat => m =? st (snd p)) ls = Some (t, x).
Proof.
  induction ls as [|[t' x'] ls IH]; cbn [map find fst snd In]; intros N J; [contradiction|]. inversion N as [|? ? N1 N2]; subst.
  destruct J as [J|J].
  - inversion J; subst. rewrite Z.eqb_refl. eauto.
  - destruct (Z.eqb_spec m (st x')) as [E|E]; [|apply IH; auto]. destruct N1. rewrite <- E. apply in_map_iff in J. destruct J as ([t2 x2] & J & K). cbn [fst snd] in J. injection J as J1 J2. apply in_map_iff. exists (t2, x2); auto.
Qed.
Lemma discrim_one st ls op t m : NoDup (map (fun p => st (snd p)) ls) -> In (t, m) (map (fun p => (fst p, st (snd p))) ls) -> discrim st ls op m = [op t m].
Proof. intros N J; unfold discrim; destruct (find_type st ls t m N J) as (x & ->); auto. Qed.
Lemma tries_block st st' ls ps : NoDup (map (fun p => st (snd p)) ls) -> (forall p, In p ls -> st' (snd p) = st (snd p)) -> incl ps (map (fun p => (fst p, st (snd p))) ls) ->
  tries st st' ls None (map snd ps) = block ps.
Proof.
  intros N E. assert (E' : map (fun p => (fst p, st' (snd p))) ls = map (fun p => (fst p, st (snd p))) ls) by (apply map_ext_in; intros p J; rewrite E; auto).
  assert (N' : NoDup (map (fun p => st' (snd p)) ls)) by (rewrite (map_ext_in _ (fun p => st (snd p))); auto).
  induction ps as [|[t m] ps IH]; intros I; [reflexivity|]. cbn [map tries snd].
  rewrite IH by (intros x J; apply I; right; auto). assert (J : In (t, m) (map (fun p => (fst p, st (snd p))) ls)) by (apply I; left; auto).
  rewrite (discrim_one st ls Lock t m), (discrim_one st' ls Unlock t m) by (rewrite ?E'; auto).
  unfold block. cbn [map rev app fst snd]. rewrite map_app, <- !app_assoc. cbn [map app fst snd]. reflexivity.
Qed.
Lemma sorted_strict (ps : list (nat * Z)) : Sorted Z.le (map snd ps) -> NoDup (map snd ps) -> ascending ps.
Proof.
  intros S1 N. apply Sorted_StronglySorted in S1; [|intros x y z; lia]. unfold ascending.
  induction ps as [|p ps IH]; constructor; cbn [map] in *; inversion S1 as [|? ? S2 F]; inversion N as [|? ? N1 N2]; subst; auto.
  apply Forall_forall. intros q Q. rewrite Forall_forall in F. assert (Q' : In (snd q) (map snd ps)) by (apply in_map; auto).
  specialize (F _ Q'). assert (snd p <> snd q) by (intros E; apply N1; rewrite E; auto). lia.
Qed.
Lemma stmt_ne args st st' bad : args <> [] -> stmt args st st' bad =
  match locks (flat args) with Some ls => match monitors st ls with Some ms => Some (tries st st' ls bad ms) | None => None end | None => None end.
Proof. destruct args; [contradiction|reflexivity]. Qed.
Lemma stmt_ok args st st' : args <> [] -> plain args -> let ps := map (fun a => match a with Lk t x => (t, st x) | Tup _ => (0%nat, 0) end) args in NoDup (map snd ps) ->
  (forall t x, In (Lk t x) args -> st' x = st x) -> exists qs, Permutation ps qs /\ ascending qs /\ stmt args st st' None = Some (block qs).
Proof.
  intros Z0 P ps N E. destruct (locks_plain args P) as (ls & L & A). assert (PS : ps = map (fun p => (fst p, st (snd p))) ls) by (unfold ps; rewrite A, map_map; reflexivity).
  rewrite stmt_ne, L by auto. unfold monitors.
  destruct (Proofs.small_sort_correct (map (fun p => st (snd p)) ls)) as (o & S1 & S2 & S3). rewrite map_length in S1. rewrite S1.
  assert (M : map (fun p : nat * nat => st (snd p)) ls = map snd ps) by (rewrite PS, map_map; reflexivity).
  rewrite M in S2. apply Permutation_sym in S2. destruct (Permutation_map_inv _ _ S2) as (qs & -> & Q).
  exists qs; split; auto. split.
  - apply sorted_strict; auto. eapply Permutation_NoDup; [apply Permutation_map, Q|auto].
  - f_equal. apply tries_block.
    + rewrite M; auto.
    + intros [t x] J. apply (E t). rewrite A. apply in_map_iff. exists (t, x); auto.
    + rewrite <- PS. intros x J. eapply Permutation_in; [apply Permutation_sym, Q|auto].
Qed.
(** threads *)
Definition lk (p : nat * Z) := Lock (fst p) (snd p).
Definition ul (p : nat * Z) := Unlock (fst p) (snd p).
Inductive at_ : list (nat * Z) -> list event -> Prop :=
  | a_acq done todo rest : ascending (done ++ todo) -> Forall ascending rest -> at_ done (map lk todo ++ Body :: map ul (rev (done ++ todo)) ++ program rest)
  | a_rel h rest : ascending h -> Forall ascending rest -> at_ h (map ul (rev h) ++ program rest).
Lemma asc_app l x : ascending (l ++ [x]) -> ascending l /\ forall p, In p l -> snd p < snd x.
Proof.
  unfold ascending; induction l as [|p l IH]; cbn [app In]; intros H; [split; [constructor|tauto]|].
  inversion H as [|? ? H1 H2]; subst. destruct (IH H1) as [I1 I2]. rewrite Forall_forall in H2. split.
  - constructor; auto. apply Forall_forall. intros q Q; apply H2, in_app_iff; auto.
  - intros q [<-|Q]; auto. apply H2, in_app_iff; right; left; auto.
Qed.
Lemma asc_pre l m : ascending (l ++ m) -> ascending l.
Proof. revert l; induction m as [|x m IH]; intros l H; [rewrite app_nil_r in H; auto|]. replace (l ++ x :: m) with ((l ++ [x]) ++ m) in H by (rewrite <- app_assoc; auto). apply IH in H. apply asc_app in H; tauto. Qed.
Inductive view (h : list (nat * Z)) : list event -> Prop :=
  | v_end : h = [] -> view h []
  | v_lock t a r : (forall p, In p h -> snd p < a) -> at_ (h ++ [(t, a)]) r -> view h (Lock t a :: r)
  | v_body r : at_ h r -> view h (Body :: r)
  | v_unlock t a h' r : h = h' ++ [(t, a)] -> at_ h' r -> view h (Unlock t a :: r).
Lemma at_view h e : at_ h e -> view h e.
Proof.
  assert (ACQ : forall done todo rest, ascending (done ++ todo) -> Forall ascending rest -> view done (map lk todo ++ Body :: map ul (rev (done ++ todo)) ++ program rest)).
  { intros done [|[t a] todo] rest A R; cbn [map app].
    - rewrite app_nil_r in *. constructor. constructor; auto.
    - unfold lk at 1; cbn [fst snd]. replace (done ++ (t, a) :: todo) with ((done ++ [(t, a)]) ++ todo) in * by (rewrite <- app_assoc; auto).
      constructor; [apply asc_pre in A; apply asc_app in A; tauto|constructor; auto]. }
  intros [done todo rest A R|h' rest A R]; auto.
  destruct (rev h') as [|[t a] r] eqn:E.
  - assert (h' = []) by (rewrite <- (rev_involutive h'), E; auto). subst. cbn [map app]. destruct R as [|s rest As R]; [constructor; auto|].
    unfold program; cbn [map concat]. unfold block. rewrite <- app_assoc. exact (ACQ [] s rest As R).
  - assert (h' = rev r ++ [(t, a)]) by (rewrite <- (rev_involutive h'), E; auto). subst h'. cbn [map app]. unfold ul at 1; cbn [fst snd].
    apply v_unlock with (h' := rev r); auto. replace r with (rev (rev r)) at 2 by apply rev_involutive. constructor; auto. apply asc_app in A; tauto.
Qed.
Lemma put_length {A} i (x : A) l : length (put i x l) = length l.
Proof. revert i; induction l; intros [|i]; cbn [put length]; auto. Qed.
Lemma nth_put {A} i j (x : A) l : (i < length l)%nat -> nth_error (put i x l) j = if Nat.eqb j i then Some x else nth_error l j.
Proof. revert i j; induction l as [|y l IH]; intros [|i] [|j] H; cbn [length] in H; try lia; cbn [put nth_error Nat.eqb]; auto. apply IH; lia. Qed.
Record inv (w : world) (hs : list (list (nat * Z))) : Prop := {
  i_len : length hs = length (snd w);
  i_at : forall t e h, nth_error (snd w) t = Some e -> nth_error hs t = Some h -> at_ h e;
  i_own : forall a t, fst w a = Some t <-> exists h, nth_error hs t = Some h /\ In a (map snd h) }.
Lemma inv_start pss : Forall (Forall ascending) pss -> inv (free, threads pss) (map (fun _ => []) pss).
Proof.
  intros F; constructor; cbn [fst snd].
  - unfold threads; rewrite !map_length; auto.
  - intros t e h E H. unfold threads in E. rewrite nth_error_map in *. destruct (nth_error pss t) as [ss|] eqn:S1; cbn [option_map] in *; [|discriminate].
    injection E as <-; injection H as <-. apply (a_rel [] ss); [constructor|]. rewrite Forall_forall in F. apply F. eapply nth_error_In; eauto.
  - intros a t; split; [discriminate|]. intros (h & H & J). rewrite nth_error_map in H. destruct (nth_error pss t); cbn [option_map] in H; [injection H as <-; destruct J|discriminate].
Qed.
Lemma nth_some {A} (l : list A) i : (i < length l)%nat -> exists x, nth_error l i = Some x.
Proof. intros H; destruct (nth_error l i) eqn:E; eauto. apply nth_error_None in E; lia. Qed.
Lemma nth_lt {A} (l : list A) i x : nth_error l i = Some x -> (i < length l)%nat.
Proof. intros H; apply nth_error_Some; congruence. Qed.
Lemma inv_put o l hs t e h r h' o' : inv (o, l) hs -> nth_error l t = Some e -> nth_error hs t = Some h -> at_ h' r ->
  (forall a u, o' a = Some u <-> if Nat.eqb u t then In a (map snd h') else o a = Some u) -> inv (o', put t r l) (put t h' hs).
Proof.
  intros I E H A O; destruct I as [I1 I2 I3]; cbn [fst snd] in *. pose proof (nth_lt _ _ _ E). pose proof (nth_lt _ _ _ H). constructor; cbn [fst snd].
  - rewrite !put_length; auto.
  - intros u f g; rewrite !nth_put by auto. destruct (Nat.eqb_spec u t); [intros F G; injection F as <-; injection G as <-; auto|apply I2].
  - intros a u. rewrite O, nth_put by auto. destruct (Nat.eqb_spec u t); [|apply I3]. split; [eauto|]. intros (g & G & J); injection G as <-; auto.
Qed.
Lemma inv_move w hs x : inv w hs -> move w x -> exists hs', inv x hs'.
Proof.
  intros I M; destruct M as [o l t ty a r E F|o l t ty a r E F|o l t ty a r E|o l t r E];
  (assert (L : (t < length hs)%nat) by (rewrite (i_len _ _ I); eapply nth_lt; eauto); destruct (nth_some hs t L) as (h & H);
   pose proof (at_view _ _ (i_at _ _ I t _ h E H)) as V; pose proof (i_own _ _ I) as O; cbn [fst snd] in O).
  - inversion V as [|? ? ? B A| |]; subst. exists (put t (h ++ [(ty, a)]) hs). eapply inv_put; eauto.
    intros b u; unfold upd. pose proof (map_app snd h [(ty, a)]) as MA. cbn [map snd] in MA. rewrite MA.
    destruct (Z.eqb_spec b a) as [->|N], (Nat.eqb_spec u t) as [->|N']; rewrite ?in_app_iff; cbn [In]; (split; [intros K|intros K]); auto; try congruence.
    + rewrite O in K. destruct K as (h2 & K1 & K2). left; congruence.
    + destruct K as [K|[K|[]]]; [apply O; eauto|congruence].
  - inversion V as [| | |? ? h' ? K A]; subst. exists (put t h' hs). eapply inv_put; eauto.
    assert (D : ~ In a (map snd h')).
    { assert (AS : ascending (h' ++ [(ty, a)])). { pose proof (i_at _ _ I t _ _ E H) as Q. inversion Q as [? ? ? Q1|? ? Q1]; subst; auto. apply asc_pre in Q1; auto. }
      apply asc_app in AS. destruct AS as [_ AS]. intros J. apply in_map_iff in J. destruct J as (p & <- & J). specialize (AS p J). cbn [snd] in AS. lia. }
    intros b u; unfold upd. destruct (Z.eqb_spec b a) as [->|N], (Nat.eqb_spec u t) as [->|N']; (split; [intros Q|intros Q]); auto; try congruence; try contradiction.
    + rewrite O in Q. destruct Q as (h2 & Q1 & Q2). rewrite H in Q1. injection Q1 as <-. rewrite map_app, in_app_iff in Q2. destruct Q2 as [Q2|[Q2|[]]]; auto. cbn [snd] in Q2; congruence.
    + apply O. exists (h' ++ [(ty, a)]). split; auto. rewrite map_app, in_app_iff; auto.
  - inversion V.
  - inversion V as [| |? A|]; subst. exists (put t h hs). eapply inv_put; eauto. intros b u. destruct (Nat.eqb_spec u t) as [->|N']; [|tauto].
    rewrite O. split; [intros (h2 & Q1 & Q2); congruence|eauto].
Qed.
Lemma inv_moves n w x : moves n w x -> (exists hs, inv w hs) -> exists hs, inv x hs.
Proof. intros M; induction M; auto. intros I; destruct (IHM I) as (hs & J). eapply inv_move; eauto. Qed.
(** nobody waits in a circle *)
Definition above (a : Z) (hs : list (list (nat * Z))) : nat := length (filter (fun b => a <=? b) (map snd (concat hs))).
Lemma filter_less (l : list Z) a b : a < b -> In a l -> (length (filter (fun x => (b <=? x)%Z) l) < length (filter (fun x => (a <=? x)%Z) l))%nat.
Proof.
  intros H J. assert (K : forall m, (length (filter (fun x => (b <=? x)%Z) m) <= length (filter (fun x => (a <=? x)%Z) m))%nat).
  { induction m as [|x m IH]; cbn [filter length]; auto. destruct (Z.leb_spec b x), (Z.leb_spec a x); cbn [length]; lia. }
  induction l as [|x l IH]; cbn [filter In] in *; [contradiction|]. destruct J as [->|J].
  - destruct (Z.leb_spec b a), (Z.leb_spec a a); try lia. cbn [length]. specialize (K l); lia.
  - specialize (IH J). destruct (Z.leb_spec b x), (Z.leb_spec a x); cbn [length]; lia.
Qed.
Lemma waits n : forall w hs t ty a r, (above a hs <= n)%nat -> inv w hs -> nth_error (snd w) t = Some (Lock ty a :: r) -> exists x, move w x.
Proof.
  induction n as [n IH] using lt_wf_ind; intros [o l] hs t ty a r L I E; cbn [snd] in *. destruct (o a) as [u|] eqn:O; [|eexists; eapply m_lock; eauto].
  pose proof (proj1 (i_own _ _ I a u) O) as (h & H & J). assert (Lu : (u < length l)%nat) by (pose proof (i_len _ _ I) as Q; cbn [snd] in Q; rewrite <- Q; eapply nth_lt; eauto).
  destruct (nth_some l u Lu) as (e & Eu). pose proof (at_view _ _ (i_at _ _ I u e h Eu H)) as V. destruct V as [->|t' b r' B _|r' _|t' b h' r' K _].
  - destruct J.
  - apply in_map_iff in J. destruct J as (p & Pa & J). specialize (B p J). rewrite Pa in B.
    apply (IH (above b hs)) with hs u t' b r'; auto. apply Nat.lt_le_trans with (above a hs); auto. apply filter_less; auto.
    rewrite <- Pa. apply in_map. apply in_concat. exists h; split; auto. eapply nth_error_In; eauto.
  - eexists; eapply m_body; eauto.
  - assert (Ob : o b = Some u). { apply (proj2 (i_own _ _ I b u)). exists h; split; auto. subst h. rewrite map_app, in_app_iff; right; left; auto. }
    eexists; eapply m_unlock; eauto.
Qed.
Lemma progress w hs : inv w hs -> finished w \/ exists x, move w x.
Proof.
  intros I. destruct w as [o l]; cbn [snd] in *.
  assert (D : finished (o, l) \/ exists t e r, nth_error l t = Some (e :: r)).
  { clear. unfold finished; cbn [snd]. induction l as [|[|e r] l IH]; [left; constructor| |right; exists 0%nat, e, r; reflexivity].
    destruct IH as [IH|(t & e & r & IH)]; [left; constructor; auto|right; exists (S t), e, r; auto]. }
  destruct D as [D|(t & e & r & E)]; auto. right. assert (Lt : (t < length hs)%nat) by (rewrite (i_len _ _ I); eapply nth_lt; eauto). destruct (nth_some hs t Lt) as (h & H).
  pose proof (at_view _ _ (i_at _ _ I t _ h E H)) as V. inversion V as [|t' b r' B _|r' _|t' b h' r' K _]; subst.
  - eapply waits; eauto.
  - eexists; eapply m_body; eauto.
  - eexists; eapply m_unlock; eauto. apply (proj2 (i_own _ _ I b t)). exists (h' ++ [(t', b)]); split; auto. rewrite map_app, in_app_iff; right; left; auto.
Qed.
Lemma length_concat_put t (e : event) r l : nth_error l t = Some (e :: r) -> S (length (concat (put t r l))) = length (concat l).
Proof. revert t; induction l as [|x l IH]; intros [|t] H; cbn [nth_error] in H; try discriminate; cbn [put concat]; rewrite !app_length. { injection H as ->; cbn [length]; lia. } specialize (IH t H); lia. Qed.
Lemma move_len w x : move w x -> S (length (concat (snd x))) = length (concat (snd w)).
Proof. intros M; destruct M; cbn [snd]; eapply length_concat_put; eauto. Qed.
Lemma moves_len n w x : moves n w x -> (n + length (concat (snd x)) = length (concat (snd w)))%nat.
Proof. intros M; induction M; auto. apply move_len in H; lia. Qed.
Lemma prog_head rest : match program rest with Unlock _ _ :: _ => False | _ => True end.
Proof. destruct rest as [|[|[t a] s] rest]; cbn; auto. Qed.
Lemma ul_incl L H rest P : map ul L ++ rest = map ul H ++ P -> match P with Unlock _ _ :: _ => False | _ => True end -> incl L H.
Proof.
  revert H; induction L as [|[t a] L IH]; intros H E NP; [intros x []|]. destruct H as [|[t' a'] H].
  - cbn [map app] in E. subst P. cbn [ul map app] in NP. contradiction.
  - cbn [map app] in E. unfold ul at 1 3 in E; cbn [fst snd] in E. injection E as -> -> E. intros x [<-|J]; [left; auto|right; apply (IH H E NP); auto].
Qed.
Lemma inside_has w hs t h ls : inv w hs -> inside w t ls -> nth_error hs t = Some h -> incl ls h.
Proof.
  intros I (rest & E) H. pose proof (i_at _ _ I t _ h E H) as A.
  assert (K : forall s q, ascending s -> Forall ascending q -> forall rest', Body :: map ul (rev ls) ++ rest = block s ++ rest' -> rest' = program q -> ls = []).
  { intros s q As Aq rest' E' ->. unfold block in E'. destruct s as [|[t1 a1] s]; cbn [map app rev] in E'; [|discriminate]. injection E' as E'. 
    destruct (rev ls) as [|[t2 a2] L] eqn:RL; [rewrite <- (rev_involutive ls), RL; auto|]. pose proof (prog_head q) as PH. rewrite <- E' in PH. cbn [map app] in PH. contradiction. }
  assert (G : Body :: map (fun p => Unlock (fst p) (snd p)) (rev ls) ++ rest = Body :: map ul (rev ls) ++ rest) by reflexivity. rewrite G in A. clear G.
  inversion A as [done todo q As Aq Eq1 Eq2|h2 q As Aq Eq1 Eq2]; subst.
  - destruct todo as [|[t1 a1] todo]; cbn [map app] in Eq2; [|discriminate]. injection Eq2 as Eq2. rewrite app_nil_r in Eq2. symmetry in Eq2.
    pose proof (ul_incl _ _ _ _ Eq2 (prog_head q)) as J. intros x X. apply in_rev in X. apply J in X. apply in_rev; auto.
  - destruct (rev h) as [|[t1 a1] r1] eqn:RH; cbn [map app] in Eq2; [|discriminate]. destruct Aq as [|s q As' Aq]; [discriminate|]. unfold program in Eq2; cbn [map concat] in Eq2.
    rewrite (K s q As' Aq _ (eq_sym Eq2) eq_refl). intros x [].
Qed.
Lemma proper_stmt args st st' : proper (args, st, st') -> exists qs, Permutation (map (address st) args) qs /\ ascending qs /\ stmt args st st' None = Some (block qs).
Proof.
  intros (Z0 & P & N & E). apply stmt_ok; auto.
  - rewrite map_map. exact N.
  - intros t x J. specialize (E _ J). cbn [address] in E. congruence.
Qed.
Lemma system_threads p : Forall (Forall proper) p -> exists pss, Forall (Forall ascending) pss /\ system p = (free, threads pss).
Proof.
  intros F. assert (G : exists pss, Forall (Forall ascending) pss /\ map (fun ss => concat (map does ss)) p = threads pss); [|destruct G as (pss & G1 & G2); exists pss; split; auto; unfold system; rewrite G2; auto].
  induction F as [|ss p H F IH]; [exists []; split; [constructor|reflexivity]|]. destruct IH as (pss & I1 & I2).
  assert (K : exists qss, Forall ascending qss /\ concat (map does ss) = program qss).
  { clear -H. induction H as [|[[args st] st'] ss P H IH]; [exists []; split; [constructor|reflexivity]|]. destruct IH as (qss & I1 & I2).
    destruct (proper_stmt _ _ _ P) as (qs & _ & A & E). exists (qs :: qss). split; [constructor; auto|]. cbn [map concat]. unfold does at 1. rewrite E, I2. reflexivity. }
  destruct K as (qss & K1 & K2). exists (qss :: pss). split; [constructor; auto|]. unfold threads in *; cbn [map]. congruence.
Qed.
