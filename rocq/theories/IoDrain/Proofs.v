From Coq Require Import List Bool Arith ZArith Lia ZifyBool.
From Verif.IoRing Require Import Model Proofs.
From Verif.IoDrain Require Import Model Spec.
Import ListNotations.
Open Scope Z_scope.
Lemma put_length {A} i (x : A) l : length (put i x l) = length l.
Proof. revert i; induction l; intros [|i]; cbn [put length]; auto. Qed.
Lemma nth_put {A} i j (x : A) l : (i < length l)%nat -> nth_error (put i x l) j = if Nat.eqb j i then Some x else nth_error l j.
Proof. revert i j; induction l as [|y l IH]; intros [|i] [|j] H; cbn [length] in H; try lia; cbn [put nth_error Nat.eqb]; auto. apply IH; lia. Qed.
Lemma nth_lt {A} (l : list A) i x : nth_error l i = Some x -> (i < length l)%nat.
Proof. intros H; apply nth_error_Some; congruence. Qed.
Section Drain.
Variable k : Z.
Hypothesis K : 0 <= k <= 31.
Let m := 2 ^ k.
(** the ring contains q *)
Record holds (s : st) (q : list Z) : Prop := {
  h_num : num s = m;
  h_hd : w32 (hd s) = hd s;
  h_tl : w32 (tl s) = tl s;
  h_len : w32 (tl s - hd s) = Z.of_nat (length q);
  h_max : Z.of_nat (length q) <= m;
  h_q : read m (cqes s) (hd s) (length q) = q }.
Definition prog (s : st) (q : list Z) (c : pc) (i : nat) : Prop :=
  match c with Loop h n j => h = hd s /\ 0 <= n <= Z.of_nat (length q) /\ Z.of_nat j <= n /\ i = j | _ => i = 0%nat end.
Inductive inv (s : st) : Prop :=
  | i_free q : lk s = false -> (forall p c, nth_error (ps s) p = Some c -> working c = false) -> holds s q -> posted s = delivered s ++ q ++ over s -> inv s
  | i_busy p c q i : lk s = true -> nth_error (ps s) p = Some c -> working c = true -> (forall p' c', nth_error (ps s) p' = Some c' -> working c' = true -> p' = p) ->
      holds s q -> prog s q c i -> posted s = delivered s ++ skipn i q ++ over s -> inv s.
Lemma holds_push s q l ov po : holds s q -> Z.of_nat (length q) + Z.of_nat (length l) <= m -> holds (push s l ov po) (q ++ l).
Proof.
  intros [N H T L M Q] E. pose proof (m_pos k K) as P. fold m in P. constructor; unfold push; cbn [num hd tl cqes]; auto.
  - apply w32_w32.
  - rewrite w32_sub_l. replace (tl s + Z.of_nat (length l) - hd s) with ((tl s - hd s) + Z.of_nat (length l)) by lia. rewrite <- w32_add, L, app_length, <- Nat2Z.inj_add. apply (w32_len k K). fold m. lia.
  - rewrite app_length. lia.
  - rewrite N, app_length. unfold m. rewrite (read_app k K). fold m. pose proof (w32_sub _ _ _ L) as L'. f_equal.
    + unfold m; rewrite (read_old k K); auto.
    + unfold m; rewrite (read_cong k K _ _ (tl s)) by (rewrite w32_w32; auto). apply (read_write k K). fold m. lia.
Qed.
Lemma inv_push s l ov po : Z.of_nat (length l) <= room s -> l ++ ov = over s ++ po -> inv s -> inv (push s l ov po).
Proof.
  intros R E I. unfold room in R. destruct I as [q B W H P|p c q i B C W U H G P].
  - rewrite (h_num _ _ H), (h_len _ _ H) in R. apply i_free with (q ++ l); auto. { apply holds_push; auto; lia. } unfold push, delivered; cbn [posted log over]. fold (delivered s). rewrite P, <- !app_assoc, E. reflexivity.
  - rewrite (h_num _ _ H), (h_len _ _ H) in R. apply i_busy with p c (q ++ l) i; auto. { apply holds_push; auto; lia. }
    + destruct c; cbn [prog] in *; auto. unfold push; cbn [hd]. rewrite app_length. lia.
    + unfold push, delivered; cbn [posted log over]. fold (delivered s). assert (i <= length q)%nat by (destruct c; cbn [prog] in G; lia).
      rewrite P, skipn_app, <- !app_assoc. replace (i - length q)%nat with 0%nat by lia. rewrite skipn_O, <- E. reflexivity.
Qed.
Lemma room_le s q : holds s q -> room s = m - Z.of_nat (length q).
Proof. intros H. unfold room. rewrite (h_num _ _ H), (h_len _ _ H). reflexivity. Qed.
Lemma inv_holds s : inv s -> exists q, holds s q.
Proof. intros [q|p c q i]; eauto. Qed.
Lemma inv_kflush s : inv s -> inv (kflush s).
Proof.
  intros I. destruct (inv_holds _ I) as (q & H). unfold kflush. apply inv_push; auto.
  - rewrite firstn_length. pose proof (room_le _ _ H). pose proof (h_max _ _ H). lia.
  - rewrite firstn_skipn, app_nil_r. reflexivity.
Qed.
Lemma inv_kpost s c : inv s -> inv (kpost s c).
Proof.
  intros I. destruct (inv_holds _ I) as (q & H). pose proof (room_le _ _ H). pose proof (h_max _ _ H). unfold kpost. destruct (over s) eqn:O.
  - destruct (0 <? room s) eqn:R; cbn [andb]; apply inv_push; auto; cbn [length app]; rewrite ?O; auto; lia.
  - cbn [andb]. apply inv_push; auto; cbn [length app]; rewrite ?O; auto. lia.
Qed.
Lemma free_others s p c : nth_error (ps s) p = Some c -> working c = false -> forall c', working c' = false -> forall p' c2, nth_error (put p c' (ps s)) p' = Some c2 -> working c2 = true -> nth_error (ps s) p' = Some c2.
Proof. intros H W c' W' p' c2 H2 W2. rewrite nth_put in H2 by (eapply nth_lt; eauto). destruct (Nat.eqb_spec p' p); [injection H2 as <-; congruence|auto]. Qed.
Lemma inv_idle s p c c' : nth_error (ps s) p = Some c -> working c = false -> working c' = false -> inv s -> inv (at_ s p c').
Proof.
  intros H W W' I. destruct I as [q B F Hq P|p2 c2 q i B C W2 U Hq G P].
  - apply i_free with q; auto; [|destruct Hq; constructor; auto]. intros p' c2 H2. cbn [at_ ps] in H2. destruct (working c2) eqn:E; auto. rewrite (F p' c2) in E; auto. eapply (free_others s p c); eauto.
  - apply i_busy with p2 c2 q i; auto.
    + cbn [at_ ps]. rewrite nth_put by (eapply nth_lt; eauto). destruct (Nat.eqb_spec p2 p); [subst; congruence|auto].
    + intros p' c3 H3 W3. cbn [at_ ps] in H3. eapply U; eauto. eapply (free_others s p c); eauto.
    + destruct Hq; constructor; auto.
Qed.
(** the processor that has the lock goes on *)
Lemma inv_turn s s' p c c' q i : nth_error (ps s) p = Some c -> working c = true -> (forall p' c', nth_error (ps s) p' = Some c' -> working c' = true -> p' = p) ->
  ps s' = put p c' (ps s) -> lk s' = working c' -> holds s' q -> prog s' q c' i -> posted s' = delivered s' ++ skipn i q ++ over s' -> inv s'.
Proof.
  intros H W U E B Hq G P. assert (L : (p < length (ps s))%nat) by (eapply nth_lt; eauto). destruct (working c') eqn:W'.
  - apply i_busy with p c' q i; auto.
    + rewrite E, nth_put by auto. rewrite Nat.eqb_refl; auto.
    + intros p' c2 H2 W2. rewrite E, nth_put in H2 by auto. destruct (Nat.eqb_spec p' p); [auto|eauto].
  - apply i_free with q; auto.
    + intros p' c2 H2. rewrite E, nth_put in H2 by auto. destruct (Nat.eqb_spec p' p) as [->|N]; [injection H2 as <-; auto|]. destruct (working c2) eqn:W2; auto. destruct N. eapply U; eauto.
    + assert (i = 0)%nat by (destruct c'; cbn [prog working] in *; try discriminate; auto). subst i. exact P.
Qed.
Lemma nth_read a h q i : (i < length q)%nat -> read m a h (length q) = q -> nth_error q i = Some (a (slot m (w32 (h + Z.of_nat i)))).
Proof.
  intros L E. rewrite <- E. unfold read. rewrite nth_error_map. assert (F : nth_error (iota (length q)) i = Some (Z.of_nat i)). { unfold iota. rewrite nth_error_map. rewrite (nth_error_nth' _ 0%nat) by (rewrite seq_length; lia). cbn [option_map]. rewrite seq_nth by lia. reflexivity. }
  rewrite F. reflexivity.
Qed.
Lemma skipn_nth {A} (q : list A) i x : nth_error q i = Some x -> skipn i q = x :: skipn (i + 1) q.
Proof. revert i; induction q as [|y q IH]; intros [|i] H; cbn [nth_error] in H; try discriminate; [injection H as ->; reflexivity|]. cbn [Nat.add skipn]. apply IH; auto. Qed.
Theorem inv_step s a s' : inv s -> step s a = Some s' -> inv s'.
Proof.
  intros I H. destruct a as [c| |p ok]; cbn [step] in H; [injection H as <-; apply inv_kpost; auto|injection H as <-; apply inv_kflush; auto|].
  destruct (nth_error (ps s) p) as [c|] eqn:N; [|discriminate]. assert (L : (p < length (ps s))%nat) by (eapply nth_lt; eauto).
  destruct c as [| | |h n j| |].
  - injection H as <-. apply (inv_idle s p Out); auto. destruct (hd s =? tl s); auto.
  - injection H as <-. destruct (lk s) eqn:B; [apply (inv_idle s p Checked); auto|].
    destruct I as [q B' F Hq P|p2 c2 q i B' _ _ _ _ _ _]; [|congruence].
    apply i_busy with p Locked q 0%nat; cbn [at_ lock ps lk prog working]; auto.
    + rewrite nth_put by auto. rewrite Nat.eqb_refl; auto.
    + intros p' c' H' W'. rewrite nth_put in H' by auto. destruct (Nat.eqb_spec p' p); auto. rewrite (F _ _ H') in W'. discriminate.
    + destruct Hq; constructor; auto.
  - injection H as <-. destruct I as [q B' F Hq P|p2 c2 q i B' N2 W U Hq G P]; [discriminate (F _ _ N)|].
    assert (p = p2) by (eapply U; eauto). subst p2. assert (c2 = Locked) by congruence. subst c2. cbn [prog] in G. subst i.
    eapply (inv_turn s _ p Locked (Loop (hd s) (w32 (tl s - hd s)) 0) q 0%nat); eauto; cbn [at_ ps lk]; auto.
    + destruct Hq; constructor; auto.
    + cbn [prog at_ hd]. rewrite (h_len _ _ Hq). lia.
  - destruct I as [q B' F Hq P|p2 c2 q i B' N2 W U Hq G P]; [discriminate (F _ _ N)|].
    assert (p = p2) by (eapply U; eauto). subst p2. assert (c2 = Loop h n j) by congruence. subst c2. cbn [prog] in G. destruct G as (-> & G1 & G2 & ->).
    destruct (Z.ltb_spec (Z.of_nat j) n).
    + injection H as <-. assert (J : (j < length q)%nat) by lia.
      pose proof (nth_read (cqes s) (hd s) q j J (h_q _ _ Hq)) as X. rewrite <- (h_num _ _ Hq) in X.
      eapply (inv_turn s _ p _ (Loop (hd s) n (j + 1)) q (j + 1)%nat); eauto; cbn [at_ fulfil ps lk]; auto.
      * destruct Hq; constructor; auto.
      * cbn [prog at_ fulfil hd]. lia.
      * unfold delivered in *. cbn [at_ fulfil log posted over]. rewrite P, map_app, (skipn_nth q j _ X), <- app_assoc. reflexivity.
    + injection H as <-. assert (n = Z.of_nat j) by lia. subst n. assert (J : (j <= length q)%nat) by lia. pose proof (h_max _ _ Hq).
      destruct (split_read k K (cqes s) (hd s) q j J (h_q _ _ Hq)) as [_ Q2].
      eapply (inv_turn s _ p (Loop (hd s) (Z.of_nat j) j) (if Z.of_nat j <? num s then Unlock else Sys) (skipn j q) 0%nat); eauto; cbn [at_ seen ps lk]; [|..].
      * rewrite B'. destruct (Z.of_nat j <? num s); reflexivity.
      * destruct Hq as [A1 A2 A3 A4 A5 A6]. constructor; cbn [at_ seen num hd tl cqes]; auto.
        -- apply w32_w32.
        -- rewrite w32_sub_r. replace (tl s - (hd s + Z.of_nat j)) with ((tl s - hd s) - Z.of_nat j) by lia. rewrite <- w32_sub_l, A4, skipn_length, <- Nat2Z.inj_sub by auto. apply (w32_len k K). fold m. lia.
        -- rewrite skipn_length. lia.
        -- rewrite skipn_length. exact Q2.
      * destruct (Z.of_nat j <? num s); cbn [prog]; auto.
  - assert (D : inv (if ok then kflush s else s)) by (destruct ok; auto; apply inv_kflush; auto). injection H as <-.
    assert (N' : nth_error (ps (if ok then kflush s else s)) p = Some Sys) by (destruct ok; auto).
    destruct D as [q B' F Hq P|p2 c2 q i B' N2 W U Hq G P]; [discriminate (F _ _ N')|].
    assert (p = p2) by (eapply U; eauto). subst p2. assert (c2 = Sys) by congruence. subst c2. cbn [prog] in G. subst i.
    eapply (inv_turn (if ok then kflush s else s) _ p Sys Locked q 0%nat); eauto; cbn [prog at_ ps lk]; auto. destruct Hq; constructor; auto.
  - injection H as <-. destruct I as [q B' F Hq P|p2 c2 q i B' N2 W U Hq G P]; [discriminate (F _ _ N)|].
    assert (p = p2) by (eapply U; eauto). subst p2. assert (c2 = Unlock) by congruence. subst c2. cbn [prog] in G. subst i.
    eapply (inv_turn s _ p Unlock Out q 0%nat); eauto; cbn [prog at_ lock ps lk]; auto. destruct Hq; constructor; auto.
Qed.
Lemma inv_start c0 n : inv (start m c0 n).
Proof.
  pose proof (m_pos k K). fold m in H. apply i_free with []; cbn [start lk ps posted delivered log map over app]; auto.
  - intros p c E. apply nth_error_In, repeat_spec in E. subst; reflexivity.
  - constructor; cbn [start num hd tl cqes length]; auto; lia.
Qed.
Theorem inv_steps l : forall s s', inv s -> steps s l = Some s' -> inv s'.
Proof. induction l as [|a l IH]; cbn [steps]; intros s s' I H; [congruence|]. destruct (step s a) as [s1|] eqn:E; [|discriminate]. apply (IH s1); auto. eapply inv_step; eauto. Qed.
(** with the kernel quiet, the processors come to an end *)
Definition left_ (s : st) : nat := length (posted s) - length (delivered s) - length (over s).
Definition wc (c : pc) (u : nat) : nat :=
  match c with
  | Locked => match u with O => 3 | _ => 2 end
  | Loop h n j => if (Z.of_nat j <? n)%Z then 1 else match u with O => if (n =? 0)%Z then 2 else 5 | _ => 6 end
  | Sys => 4
  | Unlock => match u with O => 1 | _ => 5 end
  | Out | Checked => 0
  end%nat.
Definition wt (l : list pc) (u : nat) : nat :=
  match find working l with Some c => wc c u | None => match u with O => 0 | _ => match l with Out :: _ => 4 | _ => 3 end end end%nat.
Definition mu (s : st) : nat := (7 * left_ s + wt (ps s) (left_ s))%nat.
Lemma find_busy l p c : nth_error l p = Some c -> working c = true -> (forall p' c', nth_error l p' = Some c' -> working c' = true -> p' = p) -> find working l = Some c.
Proof.
  intros N W U. destruct (find working l) as [c'|] eqn:F.
  - apply find_some in F. destruct F as [F1 F2]. apply In_nth_error in F1. destruct F1 as (p' & F1). assert (p' = p) by eauto. congruence.
  - apply nth_error_In in N. rewrite (find_none _ _ F _ N) in W. discriminate.
Qed.
Lemma find_idle l : (forall p c, nth_error l p = Some c -> working c = false) -> find working l = None.
Proof. intros H. destruct (find working l) as [c|] eqn:F; auto. apply find_some in F. destruct F as [F1 F2]. apply In_nth_error in F1. destruct F1 as (p & F1). rewrite (H _ _ F1) in F2. discriminate. Qed.
Lemma left_is s q : posted s = delivered s ++ q ++ over s -> left_ s = length q.
Proof. unfold left_. intros ->. rewrite !app_length. lia. Qed.
Lemma wc_max c u : (wc c u <= 6)%nat.
Proof. destruct c, u; cbn [wc]; try lia; destruct (_ <? _); try lia; destruct (_ =? _); lia. Qed.
Lemma wt_max l u : (wt l u <= 6)%nat.
Proof. unfold wt. destruct (find working l); [apply wc_max|]. destruct u, l as [|[] l]; lia. Qed.
Theorem goes_on s : inv s -> ps s <> [] -> left_ s = 0%nat /\ lk s = false \/ exists p s', step s (Go p false) = Some s' /\ over s' = over s /\ (mu s' < mu s)%nat.
Proof.
  intros I NE. destruct I as [q B F Hq P|p c q i B N W U Hq G P].
  - pose proof (left_is _ _ P) as L. destruct q as [|x q]; [left; auto|]. right. exists 0%nat.
    assert (D : hd s =? tl s = false). { pose proof (h_len _ _ Hq) as H. destruct (Z.eqb_spec (hd s) (tl s)) as [E|]; auto. rewrite E, Z.sub_diag in H. cbn [length] in H. change (w32 0) with 0 in H. lia. }
    destruct (ps s) as [|c l] eqn:E; [contradiction|]. pose proof (F 0%nat c eq_refl) as W. cbn [step]. rewrite E. cbn [nth_error].
    assert (M : mu s = (7 * length (x :: q) + match c with Out => 4 | _ => 3 end)%nat). { unfold mu. rewrite L, E. unfold wt. rewrite (find_idle _ F). cbn [length]. destruct c; reflexivity. }
    rewrite M. destruct c; try discriminate W.
    + rewrite D. eexists. split; [reflexivity|]. split; [reflexivity|]. unfold mu. change (left_ (at_ s 0 Checked)) with (left_ s). rewrite L. cbn [at_ ps]. rewrite E. cbn [put]. unfold wt. rewrite find_idle; [cbn [length]; lia|].
      intros [|p] c H; cbn [nth_error] in H; [injection H as <-; auto|apply (F (Datatypes.S p)); auto].
    + rewrite B. eexists. split; [reflexivity|]. split; [reflexivity|]. unfold mu. change (left_ (at_ (lock s true) 0 Locked)) with (left_ s). rewrite L. cbn [at_ lock ps]. rewrite E. cbn [put]. unfold wt. cbn [find working wc length]. lia.
  - right. exists p. cbn [step]. rewrite N. assert (L : (p < length (ps s))%nat) by (eapply nth_lt; eauto). pose proof (left_is s (skipn i q) P) as Lf. rewrite skipn_length in Lf.
    assert (M : mu s = (7 * left_ s + wc c (left_ s))%nat) by (unfold mu, wt; rewrite (find_busy _ _ _ N W U); reflexivity). rewrite M.
    assert (T : forall s' c', working c' = true -> ps s' = put p c' (ps s) -> left_ s' = left_ s -> mu s' = (7 * left_ s + wc c' (left_ s))%nat).
    { intros s' c' W' E E'. unfold mu, wt. rewrite E, E', (find_busy _ p c'); auto; [rewrite nth_put, Nat.eqb_refl; auto|]. intros p' c2 H2 W2. rewrite nth_put in H2 by auto. destruct (Nat.eqb_spec p' p); auto. eauto. }
    destruct c as [| | |h n j| |]; try discriminate W.
    + cbn [prog] in G. subst i. rewrite Nat.sub_0_r in Lf. eexists. split; [reflexivity|]. split; [reflexivity|]. rewrite (T _ (Loop (hd s) (w32 (tl s - hd s)) 0)) by auto. rewrite (h_len _ _ Hq), Lf. cbn [wc].
      destruct (length q) as [|k']; [cbn; lia|]. replace (Z.of_nat 0 <? Z.of_nat (Datatypes.S k')) with true by lia. lia.
    + cbn [prog] in G. destruct G as (-> & G1 & G2 & ->). destruct (Z.ltb_spec (Z.of_nat j) n).
      * eexists. split; [reflexivity|]. split; [reflexivity|]. unfold mu. match goal with |- (7 * left_ ?s' + _ < _)%nat => assert (E : (left_ s' + 1 = left_ s)%nat) end.
        { assert (left_ s = length q - j)%nat by auto. assert (LP := f_equal (@length _) P). rewrite !app_length, skipn_length in LP. unfold left_, delivered in *. cbn [at_ fulfil posted log over]. rewrite map_app, app_length. cbn [map length]. rewrite map_length in *. lia. }
        match goal with |- (_ + wt ?a ?b < _)%nat => pose proof (wt_max a b) end. lia.
      * assert (n = Z.of_nat j) by lia. subst n. eexists. split; [reflexivity|]. split; [reflexivity|]. rewrite (T _ (if Z.of_nat j <? num s then Unlock else Sys)) by (auto; destruct (_ <? _); auto). cbn [wc].
        replace (Z.of_nat j <? Z.of_nat j) with false by lia. rewrite (h_num _ _ Hq). pose proof (m_pos k K) as MP. fold m in MP. destruct (Z.ltb_spec (Z.of_nat j) m); cbn [wc]; destruct (left_ s) as [|u]; destruct (Z.eqb_spec (Z.of_nat j) 0); lia.
    + eexists. split; [reflexivity|]. split; [reflexivity|]. rewrite (T _ Locked) by auto. cbn [wc]. destruct (left_ s); lia.
    + eexists. split; [reflexivity|]. split; [reflexivity|]. unfold mu. change (left_ (at_ (lock s false) p Out)) with (left_ s). cbn [at_ lock ps]. unfold wt. rewrite find_idle.
      * cbn [wc]. destruct (left_ s); [lia|]. destruct (put p Out (ps s)) as [|[] l]; lia.
      * intros p' c2 H2. rewrite nth_put in H2 by auto. destruct (Nat.eqb_spec p' p) as [->|Np]; [injection H2 as <-; auto|]. destruct (working c2) eqn:W2; auto. destruct Np; eauto.
Qed.
Lemma ps_len s a s' : step s a = Some s' -> length (ps s') = length (ps s).
Proof.
  destruct a as [c| |p ok]; cbn [step]; intros E.
  - injection E as <-. unfold kpost. destruct (_ && _); reflexivity.
  - injection E as <-. reflexivity.
  - destruct (nth_error (ps s) p) as [[| | |h n j| |]|]; try discriminate; try (injection E as <-; try destruct (lk s); try destruct ok; cbn [at_ lock kflush push ps]; apply put_length).
    destruct (Z.of_nat j <? n); injection E as <-; apply put_length.
Qed.
Theorem drains n : forall s, (mu s <= n)%nat -> inv s -> ps s <> [] -> exists l s', by_processors l /\ steps s l = Some s' /\ over s' = over s /\ left_ s' = 0%nat /\ lk s' = false.
Proof.
  induction n as [n IH] using lt_wf_ind. intros s M I NE. destruct (goes_on s I NE) as [[D1 D2]|(p & s1 & S1 & O & M1)].
  - exists [], s. repeat split; auto. constructor.
  - destruct (IH (mu s1)) with s1 as (l & s' & B & St & O' & Q); auto; [lia|eapply inv_step; eauto| |].
    + intros Z0. pose proof (ps_len _ _ _ S1) as E. rewrite Z0 in E. destruct (ps s); [contradiction|discriminate].
    + exists (Go p false :: l), s'. split; [constructor; auto|]. cbn [steps]. rewrite S1. split; auto. split; [congruence|auto].
Qed.
Lemma inv_left s : inv s -> left_ s = 0%nat -> posted s = delivered s ++ over s.
Proof.
  intros [q B F Hq P|p c q i B N W U Hq G P] L.
  - rewrite (left_is _ _ P) in L. destruct q; [exact P|discriminate].
  - rewrite (left_is _ _ P) in L. destruct (skipn i q); [exact P|discriminate].
Qed.
End Drain.
Lemma posted_steps l : forall s s', steps s l = Some s' -> posted s' = posted s ++ completed l.
Proof.
  induction l as [|a l IH]; cbn [steps]; intros s s' H; [injection H as <-; rewrite app_nil_r; auto|]. destruct (step s a) as [s1|] eqn:E; [|discriminate]. rewrite (IH _ _ H). unfold completed; cbn [map concat]. rewrite app_assoc. f_equal.
  destruct a as [c| |p ok]; cbn [step] in E.
  - injection E as <-. unfold kpost. destruct (_ && _); reflexivity.
  - injection E as <-. reflexivity.
  - rewrite app_nil_r. destruct (nth_error (ps s) p) as [[| | |h n j| |]|]; try discriminate; try (injection E as <-; try destruct (lk s); try destruct ok; cbn; rewrite ?app_nil_r; reflexivity).
    destruct (Z.of_nat j <? n); injection E as <-; reflexivity.
Qed.
