From Coq Require Import List Bool Arith Lia ZifyBool.
From Verif.SchedLock Require Import Model Spec Proofs.
Import ListNotations.
Open Scope nat_scope.
Lemma reach_inv : forall ok m junk s, reach ok m junk s -> Inv s.
Proof. intros ok m junk s R. induction R; [apply start_inv|eapply step_inv; eauto]. Qed.
(** when no thread unregisters *)
Record Inv2 (s : state) : Prop := {
  j_some : forall i, i < ready s -> data s i <> None;
  j_own : forall n, ready s <= n < alloc s -> ending_ s = Runs -> exists t, slot (at_ s t) = Some n;
  j_w : wlock s = true -> exists w, inside (at_ s w) = true;
  j_lk : forall t, lk s t = true -> isreading (at_ s t) = true \/ exists w id, inside (at_ s w) = true /\ cell (at_ s t) = Some id /\ holds (at_ s w) id;
  j_touch : forall w i u, touches (at_ s w) = Some (i, u) -> data s i = Some u;
  j_lim : forall w i u k, touches (at_ s w) = Some (i, u) -> limit (at_ s w) = Some k -> i < k;
  j_run : ending_ s <> Fault }.
Lemma start_inv2 : forall m junk, Inv2 (start m junk).
Proof. intros m junk. constructor; unfold start; sf; cbn [touches]; intros; try discriminate; try lia. Qed.
(** t keeps its lock accounted for: the general step *)
Lemma lk_step : forall s s1 t, Inv2 s ->
  (forall u, u <> t -> at_ s1 u = at_ s u) -> (forall u, u <> t -> lk s1 u = lk s u) ->
  (lk s1 t = true -> isreading (at_ s1 t) = true \/ lk s t = true) ->
  (forall id, cell (at_ s t) = Some id -> cell (at_ s1 t) = Some id) ->
  (isreading (at_ s t) = true -> isreading (at_ s1 t) = true \/ lk s1 t = false) ->
  (inside (at_ s t) = true -> forall j, holds (at_ s t) j -> inside (at_ s1 t) = true /\ holds (at_ s1 t) j) ->
  forall u, lk s1 u = true -> isreading (at_ s1 u) = true \/ exists w id, inside (at_ s1 w) = true /\ cell (at_ s1 u) = Some id /\ holds (at_ s1 w) id.
Proof.
  intros s s1 t J A L LT C RD IN u U.
  assert (W : forall w j, inside (at_ s w) = true -> holds (at_ s w) j -> exists w', inside (at_ s1 w') = true /\ holds (at_ s1 w') j).
  { intros w j X Y. destruct (Nat.eq_dec w t) as [->|D]; [destruct (IN X j Y); eauto|]. exists w. rewrite A by auto. auto. }
  assert (CC : forall v id, cell (at_ s v) = Some id -> cell (at_ s1 v) = Some id).
  { intros v id X. destruct (Nat.eq_dec v t) as [->|D]; auto. rewrite A by auto. auto. }
  assert (K : lk s u = true \/ isreading (at_ s1 u) = true).
  { destruct (Nat.eq_dec u t) as [->|D]; [destruct (LT U); auto|]. rewrite L in U by auto. auto. }
  destruct K as [K|K]; auto. destruct (j_lk _ J u K) as [X|(w & id & X & Y & V)].
  - destruct (Nat.eq_dec u t) as [->|D]; [destruct (RD X); auto; congruence|]. rewrite A by auto. auto.
  - right. destruct (W w id X V) as (w' & P & Q). exists w', id. auto.
Qed.
Lemma ex_upd : forall (P : pc -> Prop) f t p, (exists u, P (f u)) -> (P (f t) -> P p) -> exists u : nat, P (upd f t p u).
Proof. intros P f t p [u U] H. destruct (Nat.eq_dec u t) as [->|D]; [exists t; rewrite upd_same; auto|exists u; rewrite upd_other; auto]. Qed.
Lemma touches_limit : forall p x, touches p = Some x -> exists k, limit p = Some k.
Proof. intros p x H. destruct p; cbn in *; try discriminate; eauto. Qed.
Lemma not_gone : forall s i u, Inv s -> i < ready s -> data s i = Some u -> gone s u = false.
Proof. intros s i u I L D. pose proof (v_back _ I _ _ L D) as C. unfold gone. destruct (at_ s u); auto. discriminate C. Qed.
Lemma step_inv2 : forall s t a s1, Inv s -> Inv2 s -> stays a -> step s t a = Some s1 -> Inv2 s1.
Proof.
  intros s t a s1 I J N H. pose proof (lk_step s s1 t J) as LK. unfold step in H. destruct (ending_ s) eqn:EN; try discriminate.
  destruct (at_ s t) eqn:E; destruct a; try discriminate; try (exfalso; apply N; reflexivity); injection H as <-.
  all: repeat match goal with |- context [match ?x with _ => _ end] => destruct x eqn:? end.
  all: try exact J.
  all: destruct J as [J1 J2 J3 J4 J5 J6 J7].
  all: constructor; sf; try (solve [auto|discriminate|congruence]).
  all: try match goal with
    | |- forall n, _ -> _ -> exists t0, slot _ = _ => let n := fresh "n" in intros n ? ?; apply (ex_upd (fun p => slot p = Some n)); [apply J2; auto; lia|rewrite E; cbn [slot]; solve [discriminate|auto]]
    | |- wlock _ = true -> exists w, inside _ = _ => let n := fresh "n" in intros n; apply (ex_upd (fun p => inside p = true)); [apply J3; auto|rewrite E; cbn [inside]; solve [discriminate|auto]]
    | |- forall w i u, touches _ = _ -> _ => intros ? ? ? ?; ups; red1; solve [discriminate|eauto|congruence]
    | |- forall w i u k, touches _ = _ -> _ -> _ < _ => intros ? ? ? ? ? ?; ups; red1; solve [discriminate|eauto|congruence]
    | |- forall t0, lk _ _ = true -> _ => sf; apply LK; intros; rewrite ?upd_same, ?upd_other by auto; rewrite ?E in *; red1; solve [auto|discriminate|congruence|tauto|lia]
    end.
  - exfalso. destruct (v_cas _ I _ _ _ E). apply (J1 i); auto.
  - exfalso. destruct (v_cas _ I _ _ _ E). apply (J1 i); auto.
  - intros n0 K K1. destruct (Nat.eq_dec n0 (alloc s)) as [->|D]; [exists t; rewrite upd_same; reflexivity|]. apply (ex_upd (fun p => slot p = Some n0)); [apply J2; auto; lia|rewrite E; discriminate].
  - intros i K. destruct (Nat.eq_dec i n) as [->|D]; [rewrite upd_same; discriminate|rewrite upd_other by auto; auto].
  - intros w i u K. destruct (Nat.eq_dec w t) as [->|D]; [rewrite upd_same in K; discriminate|rewrite upd_other in K by auto].
    destruct (touches_limit _ _ K) as [k KL]. pose proof (J6 _ _ _ _ K KL). pose proof (v_lim _ I _ _ KL). assert (ready s <= n) by (apply (v_slot _ I t); rewrite E; reflexivity). rewrite upd_other by lia. eauto.
  - intros i K. apply Nat.eqb_eq in Heqb. destruct (Nat.eq_dec i n) as [->|D]; [|apply J1; lia]. rewrite (v_stored _ I t n) by (rewrite E; reflexivity). discriminate.
  - apply Nat.eqb_eq in Heqb. intros n0 K K1. apply (ex_upd (fun p => slot p = Some n0)); [apply J2; auto; lia|]. rewrite E. cbn [slot]. intros X. injection X as X. lia.
  - sf. apply LK; intros; rewrite ?upd_same, ?upd_other by auto; rewrite ?E in *; red1; auto; discriminate.
  - sf. apply LK; intros; rewrite ?upd_same, ?upd_other by auto; rewrite ?E in *; red1; auto; try discriminate. rewrite upd_same in H. discriminate.
  - intros _. exists t. rewrite upd_same. reflexivity.
  - intros w j u k0 A B. destruct (Nat.eq_dec w t) as [->|D]; [rewrite upd_same in *; red1|rewrite upd_other in * by auto; eauto]. injection A as <- <-. injection B as <-. apply Nat.ltb_lt. auto.
  - exfalso. destruct (touches_limit (at_ s t) (i, u)) as [k0 KL]; [rewrite E; reflexivity|]. assert (TC : touches (at_ s t) = Some (i, u)) by (rewrite E; reflexivity).
    pose proof (J6 _ _ _ _ TC KL). pose proof (v_lim _ I _ _ KL). rewrite (not_gone s i u) in Heqb; auto; [discriminate|lia|eauto].
  - intros w j v A. destruct (Nat.eq_dec w t) as [->|D]; [rewrite upd_same in *; red1; apply (J5 t); rewrite E; auto|rewrite upd_other in * by auto; eauto].
  - intros w j v k0 A B. destruct (Nat.eq_dec w t) as [->|D]; [rewrite upd_same in *; red1; apply (J6 t j v k0); rewrite E; auto|rewrite upd_other in * by auto; eauto].
  - assert (TC : touches (at_ s t) = Some (i, u)) by (rewrite E; reflexivity). assert (KL : limit (at_ s t) = Some k) by (rewrite E; reflexivity).
    pose proof (J6 _ _ _ _ TC KL). pose proof (v_lim _ I _ _ KL). assert (CU : cell (at_ s u) = Some i) by (apply (v_back _ I); [lia|eauto]).
    assert (CC : forall x id0, cell (at_ s x) = Some id0 -> cell (upd (at_ s) t (WLoad id (i + 1) k) x) = Some id0) by (intros x id0 X; destruct (Nat.eq_dec x t) as [->|D]; [rewrite upd_same; rewrite E in X; auto|rewrite upd_other by auto; auto]).
    intros x X. destruct (Nat.eq_dec x u) as [->|D].
    { right. exists t, i. rewrite upd_same. split; auto. split; auto. cbn [holds]. lia. }
    rewrite upd_other in X by auto. destruct (J4 x X) as [Y|(w & j & Y1 & Y2 & Y3)].
    { left. destruct (Nat.eq_dec x t) as [->|D1]; [rewrite E in Y; discriminate|rewrite upd_other by auto; auto]. }
    right. assert (w = t) by (eapply (v_one _ I); eauto; rewrite E; reflexivity). subst w. exists t, j. rewrite upd_same. split; auto. split; auto. rewrite E in Y3. cbn [holds] in *. lia.
  - exfalso. destruct (touches_limit (at_ s t) (i, u)) as [k0 KL]; [rewrite E; reflexivity|]. assert (TC : touches (at_ s t) = Some (i, u)) by (rewrite E; reflexivity).
    pose proof (J6 _ _ _ _ TC KL). pose proof (v_lim _ I _ _ KL). rewrite (not_gone s i u) in Heqb; auto; [discriminate|lia|eauto].
  - intros w j v A. destruct (Nat.eq_dec w t) as [->|D]; [rewrite upd_same in *; red1; apply (J5 t); rewrite E; auto|rewrite upd_other in * by auto; eauto].
  - intros w j v k0 A B. destruct (Nat.eq_dec w t) as [->|D]; [rewrite upd_same in *; red1; apply (J6 t j v k0); rewrite E; auto|rewrite upd_other in * by auto; eauto].
  - intros w j u k0 A B. destruct (Nat.eq_dec w t) as [->|D]; [rewrite upd_same in *; red1|rewrite upd_other in * by auto; eauto]. injection A as <- <-. injection B as <-. apply Nat.ltb_lt. auto.
  - exfalso. apply Nat.ltb_lt in Heqb. apply (J1 i); auto. assert (KL : limit (at_ s t) = Some k) by (rewrite E; reflexivity). pose proof (v_lim _ I _ _ KL). lia.
  - exfalso. destruct (touches_limit (at_ s t) (i, u)) as [k0 KL]; [rewrite E; reflexivity|]. assert (TC : touches (at_ s t) = Some (i, u)) by (rewrite E; reflexivity).
    pose proof (J6 _ _ _ _ TC KL). pose proof (v_lim _ I _ _ KL). rewrite (not_gone s i u) in Heqb; auto; [discriminate|lia|eauto].
  - assert (TC : touches (at_ s t) = Some (i, u)) by (rewrite E; reflexivity).
    intros x X. destruct (Nat.eq_dec x u) as [->|D]; [rewrite upd_same in X; discriminate|]. rewrite upd_other in X by auto. destruct (J4 x X) as [Y|(w & j & Y1 & Y2 & Y3)].
    { left. destruct (Nat.eq_dec x t) as [->|D1]; [rewrite E in Y; discriminate|rewrite upd_other by auto; auto]. }
    right. assert (w = t) by (eapply (v_one _ I); eauto; rewrite E; reflexivity). subst w. exists t, j. rewrite upd_same. split; auto.
    split; [destruct (Nat.eq_dec x t) as [->|D1]; [rewrite upd_same; rewrite E in Y2; auto|rewrite upd_other by auto; auto]|].
    rewrite E in Y3. cbn [holds] in *. assert (j <> i); [|lia]. intros ->. apply D. destruct (v_cell _ I _ _ Y2) as [_ Z1]. pose proof (J5 _ _ _ TC) as Z2. congruence.
Qed.
Lemma reach_inv2 : forall m junk s, reach stays m junk s -> Inv2 s.
Proof. intros m junk s R. induction R; [apply start_inv2|eapply step_inv2; eauto; eapply reach_inv; eauto]. Qed.
(** a writer inside is never blocked by threads that rest *)
Lemma run_at : forall s, ending_ s = Runs -> forall t p, at_ s t = p -> (forall s1, step s t Go = Some s1 -> at_ s1 t <> p \/ ending_ s1 = Aborted) -> step s t Go <> None -> moves s t.
Proof. intros s RN t p E H N. unfold moves. destruct (step s t Go) as [s1|]; [|congruence]. exists s1. split; auto. rewrite E. auto. Qed.
Ltac mv RN E := eapply run_at; eauto; unfold step; rewrite RN, E; [intros ? X; injection X as <-|discriminate].
Lemma reading_moves : forall s t, ending_ s = Runs -> isreading (at_ s t) = true -> moves s t.
Proof. intros s t RN H. destruct (at_ s t) eqn:E; try discriminate. mv RN E. sf. rewrite upd_same. left. discriminate. Qed.
Lemma plus_ne : forall i : nat, i + 1 <> i.
Proof. intros. lia. Qed.
Lemma inside_moves : forall s w, ending_ s = Runs -> Inv s -> Inv2 s -> inside (at_ s w) = true -> exists u, moves s u.
Proof.
  intros s w RN I J H. pose proof (v_lim _ I w) as VL. pose proof (j_lim _ J w) as JL. pose proof (j_touch _ J w) as JT.
  assert (NG : forall i u k, touches (at_ s w) = Some (i, u) -> limit (at_ s w) = Some k -> i < ready s /\ gone s u = false).
  { intros i u k A B. pose proof (JL _ _ _ A B). pose proof (VL _ B). assert (i < ready s) by lia. split; auto. eapply not_gone; eauto. }
  destruct (at_ s w) eqn:E; try discriminate H.
  - exists w. mv RN E. sf. rewrite upd_same. left. discriminate.
  - exists w. mv RN E. left. destruct (i <? k); [destruct (data s i)|]; sf; rewrite upd_same; try discriminate. intros Y. injection Y as Y. apply (plus_ne i Y).
  - destruct (NG i u k eq_refl eq_refl) as [L G]. exists w. mv RN E. rewrite G. left. destruct (lk s u); sf; rewrite upd_same; discriminate.
  - destruct (NG i u k eq_refl eq_refl) as [L G]. destruct (lk s u) eqn:LU.
    + destruct (j_lk _ J u LU) as [X|(w' & id' & X1 & X2 & X3)]; [exists u; apply reading_moves; auto|].
      assert (w' = w) by (apply (v_one _ I); auto; rewrite E; auto). subst w'. rewrite E in X3. cbn [holds] in X3.
      pose proof (v_back _ I i u L (JT _ _ eq_refl)). assert (i = id') by congruence. lia.
    + exists w. mv RN E. rewrite G, LU. left. sf. rewrite upd_same. discriminate.
  - exists w. mv RN E. sf. rewrite upd_same. left. discriminate.
  - exists w. mv RN E. left. destruct (i <? k); [destruct (data s i)|]; sf; rewrite upd_same; try discriminate. intros Y. injection Y as Y. apply (plus_ne i Y).
  - destruct (NG i u k eq_refl eq_refl) as [L G]. exists w. mv RN E. rewrite G. left. sf; rewrite upd_same; discriminate.
  - exists w. mv RN E. sf. rewrite upd_same. left. discriminate.
Qed.
Lemma progress : forall s t, ending_ s = Runs -> Inv s -> Inv2 s -> ~ resting s t -> exists u, moves s u.
Proof.
  intros s t RN I J NR. destruct (inside (at_ s t)) eqn:IN; [eapply inside_moves; eauto|]. destruct (at_ s t) eqn:E; try discriminate IN; try (exfalso; apply NR; unfold resting; rewrite E; eauto; fail).
  - exists t. mv RN E. left. destruct (i <? k); [destruct (data s i)|]; sf; rewrite upd_same; try discriminate. intros Y. injection Y as Y. apply (plus_ne i Y).
  - exists t. mv RN E. left. destruct (data s i); sf; rewrite upd_same; discriminate.
  - exists t. mv RN E. destruct (max s <=? alloc s); sf; [right; auto|rewrite upd_same; left; discriminate].
  - exists t. mv RN E. destruct (max s <=? alloc s); sf; [right; auto|rewrite upd_same; left; discriminate].
  - exists t. mv RN E. sf. rewrite upd_same. left. discriminate.
  - assert (ready s <= n < alloc s) by (apply (v_slot _ I t); rewrite E; reflexivity). destruct (j_own _ J (ready s)) as [u U]; auto; [lia|]. exists u.
    destruct (at_ s u) eqn:EU; try discriminate U; injection U as ->; mv RN EU.
    + sf. rewrite upd_same. left. discriminate.
    + rewrite Nat.eqb_refl. sf. rewrite upd_same. left. discriminate.
  - destruct (wlock s) eqn:W; [destruct (j_w _ J W) as [w X]; eapply inside_moves; eauto|]. exists t. mv RN E. rewrite W. sf. rewrite upd_same. left. discriminate.
  - exists t. mv RN E. left. destruct (lk s t); sf; rewrite upd_same; discriminate.
  - destruct (lk s t) eqn:LT; [destruct (j_lk _ J t LT) as [X|(w & id' & X & _)]; [rewrite E in X; discriminate|eapply inside_moves; eauto]|].
    exists t. mv RN E. rewrite LT. sf. rewrite upd_same. left. discriminate.
  - exists t. apply reading_moves; auto. rewrite E. auto.
  - exists t. mv RN E. left. destruct (wlock s); sf; rewrite upd_same; discriminate.
  - destruct (wlock s) eqn:W; [destruct (j_w _ J W) as [w X]; eapply inside_moves; eauto|]. exists t. mv RN E. rewrite W. sf. rewrite upd_same. left. discriminate.
Qed.
