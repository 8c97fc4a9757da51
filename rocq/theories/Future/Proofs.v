From Coq Require Import List Bool Arith Lia.
From Verif.Future Require Import Model Spec.
Import ListNotations.
Lemma upd_same : forall X (f : nat -> X) i x, upd f i x i = x.
Proof. intros. unfold upd. rewrite Nat.eqb_refl. auto. Qed.
Lemma upd_other : forall X (f : nat -> X) i x j, j <> i -> upd f i x j = f j.
Proof. intros. unfold upd. destruct (Nat.eqb_spec j i); congruence. Qed.
Definition excp (p : pc) : bool := match p with ExcU _ | Exc _ | ExcU2 _ | Exc2 _ | Want (OExc _) | Body (OExc _) => true | _ => false end.
Definition waitp (p : pc) : bool := match p with Ins | Parked | Check | ExcU2 _ | Exc2 _ => true | _ => false end.
Definition blocked (p : pc) : bool := match p with Ins | Parked => true | _ => false end.
Definition pend (s : state) (t : nat) : list ret :=
  match at_ s t with
  | GetU r => [Val r] | ExcU e | Exc e => [Raised e] | TryU r b => [Tried r b]
  | Ins | Parked => if woken s t then [Val (slot s t)] else []
  | Check => [Val (slot s t)]
  | _ => [] end.
Definition rep (s : state) (c : cell) : Prop :=
  match c with
  | Empty => full s = false /\ except s = None
  | Value v => full s = true /\ except s = None /\ result s = Some v
  | Exception e => full s = true /\ except s = Some e end.
Record Inv (u : use) (s : state) : Prop := {
  v_in : forall t, inside (at_ s t) = true -> lk s = Some t;
  v_lk : forall t, lk s = Some t -> inside (at_ s t) = true;
  v_mis : misuse s = false;
  v_val : u = values -> except s = None /\ forall t, excp (at_ s t) = false;
  v_early : u = early -> waiters s = [] /\ forall t, waitp (at_ s t) = false;
  v_wait : forall t, In t (waiters s) <-> blocked (at_ s t) = true /\ woken s t = false;
  v_nd : NoDup (waiters s);
  v_full : full s = true -> waiters s = [];
  v_hist : exists c, legal (hist s) c /\ rep s c;
  v_mine : forall t, mine t (hist s) = rets s t ++ pend s t }.
Lemma memb_iff : forall l t, memb l t = true <-> In t l.
Proof.
  intros l t. unfold memb. rewrite existsb_exists. split; [intros (x & X & Y); apply Nat.eqb_eq in Y; subst; auto|]. intros H. exists t. rewrite Nat.eqb_refl. auto.
Qed.
Lemma mine_app : forall t a b, mine t (a ++ b) = mine t a ++ mine t b.
Proof. intros. unfold mine. apply flat_map_app. Qed.
Lemma mine_vals : forall t v l, NoDup l -> mine t (map (fun u => EVal u v) l) = if memb l t then [Val v] else [].
Proof.
  induction l as [|x l IH]; intros N; auto. inversion N; subst. cbn [map mine flat_map to_ret memb existsb]. rewrite (Nat.eqb_sym t x). fold (mine t (map (fun u => EVal u v) l)). fold (memb l t). rewrite IH by auto.
  destruct (Nat.eqb_spec x t) as [->|D]; cbn [orb]; auto. destruct (memb l t) eqn:E; auto. apply memb_iff in E. contradiction.
Qed.
Lemma legal_vals : forall v l h, legal h (Value v) -> legal (h ++ map (fun u => EVal u (Some v)) l) (Value v).
Proof.
  induction l as [|x l IH]; intros h L; cbn [map]; [rewrite app_nil_r; auto|]. change (EVal x (Some v) :: ?q) with ([EVal x (Some v)] ++ q). rewrite app_assoc. apply IH. econstructor; eauto. constructor.
Qed.
Ltac sf := cbn [full result except lk waiters slot woken at_ rets hist misuse aborted goto log return_ set_lk unlock abort insert fulfil clear] in *.
(** a step that changes only where thread t is, the lock, what t returned and the history at most by an event of t *)
Ltac at_t t u := destruct (Nat.eq_dec u t) as [->|?]; [rewrite ?upd_same in *|rewrite ?upd_other in * by auto].
Lemma start_inv : forall u, Inv u start.
Proof.
  intros u. constructor; unfold start; sf; auto; try (intros; cbn in *; discriminate).
  - split; [intros []|intros [X _]; discriminate].
  - constructor.
  - exists Empty. split; [constructor|split; auto].
Qed.
Lemma move_inv : forall u s t p h q o, Inv u s ->
  o = (if inside p then Some t else if inside (at_ s t) then None else lk s) -> (inside p = true -> inside (at_ s t) = true \/ lk s = None) ->
  (u = values -> excp p = false) -> (u = early -> waitp p = false) -> blocked p = blocked (at_ s t) \/ (woken s t = true) ->
  (exists c, legal (hist s ++ h) c /\ rep s c) -> (forall v, v <> t -> mine v h = []) ->
  rets s t ++ pend s t ++ mine t h = rets s t ++ q ++ match p with
  | GetU r => [Val r] | ExcU e | Exc e => [Raised e] | TryU r b => [Tried r b]
  | Ins | Parked => if woken s t then [Val (slot s t)] else []
  | Check => [Val (slot s t)]
  | _ => [] end ->
  Inv u (S (full s) (result s) (except s) o (waiters s) (slot s) (woken s) (upd (at_ s) t p) (upd (rets s) t (rets s t ++ q)) (hist s ++ h) (misuse s) (aborted s)).
Proof.
  intros u s t p h q o [I L M V E W N F [c0 [H0 R0]] P] EO IN VP EP BP [c [H1 R1]] HO HQ. constructor; sf; auto.
  - intros v X. at_t t v; [rewrite X in EO; auto|]. pose proof (I v X) as Y. destruct (inside p) eqn:EI.
    + destruct (IN eq_refl) as [Z0|Z0]; [apply I in Z0|]; congruence.
    + destruct (inside (at_ s t)) eqn:ET; [|congruence]. apply I in ET. congruence.
  - intros v X. at_t t v.
    + destruct (inside p); auto. destruct (inside (at_ s t)) eqn:ET; [congruence|]. rewrite EO in X. apply L in X. congruence.
    + destruct (inside p); [congruence|]. destruct (inside (at_ s t)); [congruence|]. apply L. congruence.
  - intros X. destruct (V X) as [V1 V2]. split; auto. intros v. at_t t v; auto.
  - intros X. destruct (E X) as [V1 V2]. split; auto. intros v. at_t t v; auto.
  - intros v. rewrite W. at_t t v; [|tauto]. destruct BP as [->| ->]; [tauto|]. split; intros [_ X]; discriminate.
  - exists c. split; auto.
  - intros v. rewrite mine_app. unfold pend. sf. at_t t v.
    + rewrite P. rewrite <- !app_assoc. exact HQ.
    + rewrite P, HO by auto. rewrite app_nil_r. auto.
Qed.
Lemma set_eq : forall u s s1, Inv u s -> full s1 = full s -> result s1 = result s -> except s1 = except s -> lk s1 = lk s -> waiters s1 = waiters s -> slot s1 = slot s -> woken s1 = woken s -> (forall t, at_ s1 t = at_ s t) ->
  (forall t, rets s1 t = rets s t) -> hist s1 = hist s -> misuse s1 = misuse s -> Inv u s1.
Proof.
  intros u s s1 [I L M V E W N F [c0 [H0 R0]] P] E1 E2 E3 E4 E5 E6 E7 E8 E9 E10 E11. constructor.
  - intros t. rewrite E8, E4. auto. - intros t. rewrite E8, E4. auto. - congruence.
  - intros X. rewrite E3. destruct (V X). split; auto. intros t. rewrite E8. auto.
  - intros X. rewrite E5. destruct (E X). split; auto. intros t. rewrite E8. auto.
  - intros t. rewrite E5, E8, E7. auto. - rewrite E5; auto. - rewrite E5, E1; auto.
  - exists c0. rewrite E10. split; auto. destruct c0; cbn [rep] in *; rewrite E1, E3, ?E2; auto.
  - intros t. unfold pend. rewrite E10, E9, E8, E7, E6. apply P.
Qed.
Lemma rets_same : forall s t v, rets s v = upd (rets s) t (rets s t ++ []) v.
Proof. intros. rewrite app_nil_r. at_t t v; auto. Qed.
Ltac mv p h q o := match goal with I : Inv ?u ?s |- Inv _ ?g => eapply (set_eq u _ g); [eapply (move_inv u s _ p h q o I)|..] end; sf; auto using rets_same, app_nil_r.
Lemma insert_inv : forall u s t, Inv u s -> at_ s t = Body OGet -> full s = false -> u <> early -> Inv u (goto (insert s t) t Ins).
Proof.
  intros u s t [I L M V E W N F [c0 [H0 R0]] P] ET FF UE. unfold goto, insert. constructor; sf; auto; try congruence.
  - intros v X. at_t t v; auto. apply I. rewrite ET. auto.
  - intros v X. at_t t v; auto.
  - intros X. destruct (V X) as [V1 V2]. split; auto. intros v. at_t t v; auto.
  - intros v. rewrite in_app_iff, W. cbn [In]. at_t t v; cbn [blocked]; intuition congruence.
  - assert (~ In t (waiters s)) as X by (rewrite W, ET; cbn [blocked]; intros [X _]; discriminate). clear - N X.
    assert (forall l, NoDup l -> ~ In t l -> NoDup (l ++ [t])) as Q; auto. induction l as [|x l IH]; intros A B; cbn [app]; [repeat constructor; auto|]. inversion A; subst. constructor; [rewrite in_app_iff; cbn [In] in *; intuition|]. apply IH; auto. cbn [In] in B; intuition.
  - exists c0. split; auto.
  - intros v. rewrite P. unfold pend. sf. at_t t v; auto. rewrite ET. auto.
Qed.
Lemma fulfil_inv : forall u s t v, Inv u s -> at_ s t = Body (OFul v) -> full s = false ->
  Inv u (goto (log (fulfil s (Some v) (except s)) (EFul v :: map (fun u => EVal u (Some v)) (waiters s))) t EndU).
Proof.
  intros u s t v [I L M V E W N F [c0 [H0 R0]] P] ET FF. unfold goto, log, fulfil.
  destruct c0; cbn [rep] in R0; try (destruct R0; congruence). destruct R0 as [_ V1]. constructor; sf; auto; try congruence.
  - intros w X. at_t t w; auto. apply I. rewrite ET; auto.
  - intros w X. at_t t w; auto.
  - intros X. destruct (V X) as [_ V2]. split; auto. intros w. at_t t w; auto.
  - intros X. destruct (E X) as [_ V2]. split; auto. intros w. at_t t w; auto.
  - intros w. split; [intros []|]. intros [X Y]. destruct (memb (waiters s) w) eqn:Q; [discriminate|]. at_t t w; [discriminate|]. assert (In w (waiters s)) as A by (apply W; auto). apply memb_iff in A. congruence.
  - constructor.
  - exists (Value v). split; [|cbn [rep]; auto]. change (EFul v :: ?q) with ([EFul v] ++ q). rewrite app_assoc. apply legal_vals. econstructor; eauto. constructor.
  - intros w. rewrite mine_app, P. change (EFul v :: ?q) with ([EFul v] ++ q). rewrite mine_app. cbn [mine flat_map to_ret app]. fold (mine w (map (fun u => EVal u (Some v)) (waiters s))). rewrite mine_vals by auto. unfold pend. sf. rewrite <- app_assoc. f_equal. destruct (memb (waiters s) w) eqn:Q.
    + apply memb_iff in Q. apply W in Q. destruct Q as [Q1 Q2]. at_t t w; [rewrite ET in Q1; discriminate|]. destruct (at_ s w); try discriminate; rewrite Q2; auto.
    + rewrite app_nil_r. at_t t w; auto. rewrite ET. auto.
Qed.
Lemma fulfil_exc_inv : forall s t e, Inv early s -> at_ s t = Body (OExc e) -> full s = false ->
  Inv early (goto (log (fulfil s (result s) (Some e)) (EExc e :: map (fun u => ERaise u e) (waiters s))) t EndU).
Proof.
  intros s t e [I L M V E W N F [c0 [H0 R0]] P] ET FF. destruct (E eq_refl) as [E1 E2]. rewrite E1 in *. unfold goto, log, fulfil. rewrite E1. cbn [map].
  destruct c0; cbn [rep] in R0; try (destruct R0; congruence). constructor; sf; auto; try congruence.
  - intros w X. at_t t w; auto. apply I. rewrite ET; auto.
  - intros w X. at_t t w; auto.
  - intros _. split; auto. intros w. at_t t w; auto.
  - intros w. cbn [memb existsb]. rewrite W. at_t t w; [rewrite ET|]; tauto.
  - exists (Exception e). split; [|cbn [rep]; auto]. econstructor; eauto. constructor.
  - intros w. rewrite mine_app, P. cbn [mine flat_map to_ret app]. rewrite app_nil_r. unfold pend. sf. cbn [memb existsb]. at_t t w; auto. rewrite ET. auto.
Qed.
Lemma reset_inv : forall u s t, Inv u s -> at_ s t = Body OReset -> waiters s = [] -> Inv u (goto (log (clear s) [EReset]) t EndU).
Proof.
  intros u s t [I L M V E W N F [c0 [H0 R0]] P] ET EW. unfold goto, log, clear. constructor; sf; auto; try congruence.
  - intros w X. at_t t w; auto. apply I. rewrite ET; auto.
  - intros w X. at_t t w; auto.
  - intros X. destruct (V X) as [_ V2]. split; auto. intros w. at_t t w; auto.
  - intros X. destruct (E X) as [_ V2]. split; auto. intros w. at_t t w; auto.
  - intros w. rewrite W. at_t t w; [rewrite ET|]; tauto.
  - exists Empty. split; [|cbn [rep]; auto]. econstructor; eauto. constructor.
  - intros w. rewrite mine_app, P. cbn [mine flat_map to_ret app]. rewrite app_nil_r. unfold pend. sf. at_t t w; auto. rewrite ET. auto.
Qed.
Lemma mine_one : forall t e, mine t [e] = to_ret t e.
Proof. intros. cbn [mine flat_map]. apply app_nil_r. Qed.
Ltac fin ET PE IN := try reflexivity; try discriminate; try (rewrite ET; auto; fail); try (left; rewrite ET; reflexivity); try (rewrite PE, ?app_nil_r; reflexivity);
  try (rewrite PE, mine_one; cbn [to_ret]; rewrite Nat.eqb_refl; reflexivity); try (rewrite IN; reflexivity); try (rewrite IN, Nat.eqb_refl; match goal with |- context [misuse ?s] => destruct (misuse s) end; reflexivity);
  try (match goal with HN : forall v e, (forall w, _ -> to_ret w e = []) -> _ |- _ => apply HN end; intros w D; cbn [to_ret]; match goal with |- context [?t =? _] => rewrite (proj2 (Nat.eqb_neq t w)) by auto end; reflexivity).
Lemma step_inv : forall u s t a s1, Inv u s -> allowed u s t a -> step s t a = Some s1 -> Inv u s1.
Proof.
  intros u s t a s1 I A. unfold step. destruct (aborted s) eqn:AB; [discriminate|]. pose proof (v_in _ _ I t) as IN. pose proof (v_val _ _ I) as V. pose proof (v_early _ _ I) as EA. pose proof (v_mis _ _ I) as MI. destruct (v_hist _ _ I) as [c [HL HR]].
  assert (HC : exists c, legal (hist s ++ []) c /\ rep s c) by (exists c; rewrite app_nil_r; auto).
  assert (HN : forall v e, (forall w, w <> v -> to_ret w e = []) -> forall w, w <> v -> mine w [e] = []) by (intros v e H w D; rewrite mine_one; auto).
  assert (PE : pend s t = pend s t) by auto. unfold pend at 2 in PE.
  destruct (at_ s t) as [|o|o|x|x|r| | | |x|x|r b|] eqn:ET; [| |destruct o as [| |v|e|]|..]; destruct a as [o1| | |]; try discriminate; cbn [inside] in IN; try specialize (IN eq_refl).
  - intros H; injection H as <-. mv (Want o1) (@nil ev) (@nil ret) (lk s); fin ET PE IN. intros ->. destruct o1; auto. exfalso. eapply A; eauto.
  - destruct (lk s) eqn:EL; [discriminate|]. intros H; injection H as <-. mv (Body o) (@nil ev) (@nil ret) (Some t); fin ET PE IN.
    intros X. destruct (V X) as [_ V2]. specialize (V2 t). rewrite ET in V2. destruct o; auto.
  - destruct (full s) eqn:EF.
    + destruct (except s) as [e|] eqn:EE; intros H; injection H as <-.
      * mv (ExcU e) [ERaise t e] (@nil ret) (lk s); fin ET PE IN.
        -- intros X. destruct (V X). congruence.
        -- exists c. split; auto. destruct c; cbn [rep] in HR; try (destruct HR; congruence); [destruct HR as (_ & X & _); congruence|]. destruct HR as [_ X]. rewrite EE in X. injection X as <-. econstructor; eauto. constructor.
      * mv (GetU (result s)) [EVal t (result s)] (@nil ret) (lk s); fin ET PE IN.
        exists c. split; auto. destruct c; cbn [rep] in HR; try (destruct HR; congruence). destruct HR as (_ & _ & X). rewrite X. econstructor; eauto. constructor.
    + intros H; injection H as <-. apply insert_inv; auto. intros ->. destruct A as [_ A]. rewrite A in EF; auto; discriminate.
  - destruct (full s) eqn:EF; intros H; injection H as <-.
    + mv (TryU (result s) true) [ETry t (result s) true] (@nil ret) (lk s); fin ET PE IN.
      exists c. split; auto. destruct c; cbn [rep] in HR; try (destruct HR; congruence); [destruct HR as (_ & _ & X); rewrite X|]; econstructor; eauto; constructor.
    + mv (TryU None false) [ETry t None false] (@nil ret) (lk s); fin ET PE IN.
      exists c. split; auto. destruct c; cbn [rep] in HR; try (destruct HR; congruence). econstructor; eauto; constructor.
  - destruct (full s) eqn:EF; intros H; injection H as <-; [|apply fulfil_inv; auto]. eapply set_eq; eauto.
  - destruct (full s) eqn:EF; intros H; injection H as <-; [eapply set_eq; eauto|]. destruct u; [|apply fulfil_exc_inv; auto]. destruct (V eq_refl) as [_ V2]. specialize (V2 t). rewrite ET in V2. discriminate.
  - destruct (waiters s) eqn:EW; intros H; injection H as <-; [apply reset_inv; auto|eapply set_eq; eauto].
  - intros H; injection H as <-. mv (Exc x) (@nil ev) (@nil ret) (@None nat); fin ET PE IN.
    intros X. destruct (V X) as [_ V2]. specialize (V2 t). rewrite ET in V2. discriminate.
  - destruct u; [destruct (V eq_refl) as [_ V2]; specialize (V2 t); rewrite ET in V2; discriminate|]. destruct A; congruence.
  - intros H; injection H as <-. mv Out (@nil ev) [Raised x] (lk s); fin ET PE IN.
  - intros H; injection H as <-. mv Out (@nil ev) [Val r] (@None nat); fin ET PE IN.
  - intros H; injection H as <-. mv Parked (@nil ev) (@nil ret) (@None nat); fin ET PE IN.
    intros X. destruct (EA X) as [_ V2]. specialize (V2 t). rewrite ET in V2. discriminate.
  - destruct (woken s t) eqn:EK; [|discriminate]. intros H; injection H as <-. mv Check (@nil ev) (@nil ret) (lk s); fin ET PE IN.
    intros X. destruct (EA X) as [_ V2]. specialize (V2 t). rewrite ET in V2. discriminate.
  - destruct u; [destruct (V eq_refl) as [V1 V2]; rewrite V1|destruct (EA eq_refl) as [_ V2]; specialize (V2 t); rewrite ET in V2; discriminate].
    intros H; injection H as <-. mv Out (@nil ev) [Val (slot s t)] (lk s); fin ET PE IN.
  - destruct u; [destruct (V eq_refl) as [V1 V2]|destruct (EA eq_refl) as [_ V2]]; specialize (V2 t); rewrite ET in V2; discriminate.
  - destruct u; [destruct (V eq_refl) as [V1 V2]|destruct (EA eq_refl) as [_ V2]]; specialize (V2 t); rewrite ET in V2; discriminate.
  - destruct u; [destruct (V eq_refl) as [V1 V2]|destruct (EA eq_refl) as [_ V2]]; specialize (V2 t); rewrite ET in V2; discriminate.
  - intros H; injection H as <-. mv Out (@nil ev) [Tried r b] (@None nat); fin ET PE IN.
  - intros H; injection H as <-. mv Out (@nil ev) (@nil ret) (@None nat); fin ET PE IN.
Qed.
Lemma reach_inv : forall u s, reach_in u s -> Inv u s.
Proof. intros u s H. induction H; [apply start_inv|eapply step_inv; eauto]. Qed.
