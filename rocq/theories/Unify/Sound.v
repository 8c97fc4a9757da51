From Coq Require Import List Bool Arith Lia Relations.
From Verif Require Import Unify.Model Unify.Spec Unify.Proofs.
Import ListNotations.
Set Implicit Arguments.

(** * Types and values *)
Section TyInd.
Variable P : ty -> Prop.
Hypotheses (H1 : forall q, P (Void q)) (H2 : forall q k, P (Basic q k)) (H3 : forall q t, P t -> P (Ptr q t)) (H4 : forall q t, P t -> P (Ref q t)) (H5 : forall q n t, P t -> P (Arr q n t))
  (H6 : forall q ps rs, Forall P ps -> Forall P rs -> P (Fun q ps rs)) (H7 : forall q n ps, Forall P ps -> P (Agg q n ps)) (H8 : forall q n, P (Enm q n)) (H9 : forall q v, P (TVar q v))
  (H10 : forall q, P (Zero q)) (H11 : forall q, P (One q)).
Fixpoint ty_ind2 (t : ty) : P t :=
  let all := fix all (l : list ty) : Forall P l := match l with [] => Forall_nil P | x :: l => Forall_cons x (ty_ind2 x) (all l) end in
  match t with
  | Void q => H1 q | Basic q k => H2 q k | Ptr q t => H3 q (ty_ind2 t) | Ref q t => H4 q (ty_ind2 t) | Arr q n t => H5 q n (ty_ind2 t)
  | Fun q ps rs => H6 q (all ps) (all rs) | Agg q n ps => H7 q n (all ps) | Enm q n => H8 q n | TVar q v => H9 q v | Zero q => H10 q | One q => H11 q
  end.
End TyInd.
Lemma qof_setq : forall q t, qof (setq q t) = q.
Proof. destruct t; reflexivity. Qed.
Lemma setq_setq : forall q r t, setq q (setq r t) = setq q t.
Proof. destruct t; reflexivity. Qed.
Lemma setq_qof : forall t, setq (qof t) t = t.
Proof. destruct t; reflexivity. Qed.
Lemma setq_same : forall q t, qof t = q -> setq q t = t.
Proof. intros; subst; apply setq_qof. Qed.
Lemma setq_inj : forall q a b, setq q a = setq q b -> qof a = qof b -> a = b.
Proof. intros q a b H K. rewrite <- (setq_qof a), <- (setq_qof b), <- K. rewrite <- (setq_setq (qof a) q a), <- (setq_setq (qof a) q b). congruence. Qed.
Lemma val_setq : forall s q t, val s (setq q t) = setq q (val s t).
Proof. destruct t; cbn [val setq]; auto. rewrite setq_setq; reflexivity. Qed.
Lemma qof_val : forall s t, qof (val s t) = qof t.
Proof. destruct t; cbn [val qof]; auto. apply qof_setq. Qed.
Lemma val_strip : forall s t, val s (strip t) = strip (val s t).
Proof. intros; unfold strip. rewrite val_setq, qof_val. reflexivity. Qed.
Lemma qeq_eq : forall a b, qeq a b = true <-> a = b.
Proof. intros [a1 a2 a3 a4] [b1 b2 b3 b4]; unfold qeq; cbn [qc qv qm qa]. rewrite !andb_true_iff, !eqb_true_iff. split. intros [[[-> ->] ->] ->]; auto. intros [= -> -> -> ->]; auto. Qed.
Lemma qle_antisym : forall a b, qle a b = true -> qle b a = true -> a = b.
Proof. intros [[] [] [] []] [[] [] [] []]; cbn; congruence. Qed.
Lemma qle_refl : forall a, qle a a = true.
Proof. intros [[] [] [] []]; reflexivity. Qed.
Lemma qor_same : forall q, qor q q = q.
Proof. intros [[] [] [] []]; reflexivity. Qed.
Lemma fold_and : forall A (P : A -> Prop) l, fold_right and True (map P l) <-> Forall P l.
Proof. induction l as [|x l IH]; cbn [map fold_right]. split; auto. rewrite IH. split. intros []; auto. inversion 1; auto. Qed.
Fixpoint size (t : ty) : nat :=
  match t with
  | Ptr _ b | Ref _ b | Arr _ _ b => S (size b)
  | Fun _ ps rs => S (list_sum (map size ps) + list_sum (map size rs))
  | Agg _ _ ps => S (list_sum (map size ps))
  | _ => 1
  end.
Lemma size_setq : forall q t, size (setq q t) = size t.
Proof. destruct t; reflexivity. Qed.
Lemma sum_ge : forall (f : ty -> nat) l x, In x l -> f x <= list_sum (map f l).
Proof. induction l as [|y l IH]; intros x []; cbn [map list_sum fold_right]; subst; [lia|]. specialize (IH _ H). unfold list_sum in IH. lia. Qed.
Definition isvar (t : ty) : bool := match t with TVar _ _ => true | _ => false end.
Lemma size_in : forall s t v, In v (tvars t) -> size (s v) <= size (val s t) /\ (isvar t = false -> size (s v) < size (val s t)).
Proof.
  intros s. apply (@ty_ind2 (fun t => forall v, In v (tvars t) -> size (s v) <= size (val s t) /\ (isvar t = false -> size (s v) < size (val s t))));
    cbn [tvars val size isvar]; intros; try contradiction.
  - destruct (H _ H0); lia.
  - destruct (H _ H0); lia.
  - destruct (H _ H0); lia.
  - enough (size (s v) <= list_sum (map size (map (fun p => strip (val s p)) ps)) + list_sum (map size (map (val s) rs))) by lia.
    rewrite !map_map. rewrite Forall_forall in H, H0. apply in_app_iff in H1 as [I|I]; apply in_concat in I as (l & L & I); apply in_map_iff in L as (p & <- & L).
    + destruct (H _ L v I) as [K _]. pose proof (sum_ge (fun p => size (strip (val s p))) _ _ L) as G. cbv beta in G. unfold strip in G at 1. rewrite size_setq in G. lia.
    + destruct (H0 _ L v I) as [K _]. pose proof (sum_ge (fun p => size (val s p)) _ _ L) as G. cbv beta in G. lia.
  - enough (size (s v) <= list_sum (map size (map (val s) ps))) by lia.
    rewrite map_map. rewrite Forall_forall in H. apply in_concat in H0 as (l & L & I); apply in_map_iff in L as (p & <- & L).
    destruct (H _ L v I) as [K _]. pose proof (sum_ge (fun p => size (val s p)) _ _ L) as G. cbv beta in G. lia.
  - destruct H as [<-|[]]. rewrite size_setq. split; [lia|discriminate].
Qed.

(** * Solutions restricted to a set of classes *)
Definition csat (s : nat -> ty) (c : cls) : Prop :=
  (forall u v, In u (vars c) -> In v (vars c) -> s u = s v) /\ (forall b v, bound c = Some b -> In v (vars c) -> s v = setq noq (val s b)).
Definition unq (s : nat -> ty) : Prop := forall v, qof (s v) = noq.
Definition sx (X : nat -> Prop) (s : nat -> ty) (E : env) : Prop := unq s /\ forall c, In c E -> X (id c) -> csat s c.
Lemma sx_all : forall s E, sx (fun _ => True) s E <-> solves s E.
Proof. intros; unfold sx, solves, csat. split; intros [A B]; split; auto. Qed.
Lemma sx_sub : forall (X Y : nat -> Prop) s E, (forall i, Y i -> X i) -> sx X s E -> sx Y s E.
Proof. intros X Y s E H [A B]; split; auto. Qed.

Section D.
Variable d : decls.
(** no class allows widening *)
Definition noallow (E : env) : Prop := forall c, In c E -> allow c = false.
Record sem (X : nat -> Prop) (E E' : env) (e : (nat -> ty) -> Prop) : Prop := {
  m_step : step X E E';
  m_back : forall s, sx X s E' -> sx X s E;
  m_fwd : forall s, sx X s E -> e s -> sx X s E';
  m_plain : plain_env d E';
  m_allow : noallow E -> noallow E'
}.
Lemma sem_refl : forall X E e, ok_env E -> plain_env d E -> sem X E E e.
Proof. intros; split; auto. apply step_refl; auto. Qed.
Lemma sem_trans : forall X E1 E2 E3 (e1 e2 e : (nat -> ty) -> Prop), sem X E1 E2 e1 -> sem X E2 E3 e2 -> (forall s, sx X s E1 -> e s -> e1 s) -> (forall s, sx X s E1 -> e s -> e2 s) -> sem X E1 E3 e.
Proof.
  intros X E1 E2 E3 e1 e2 e A B H1 H2; split; [| | |exact (m_plain B)|intros H; apply (m_allow B), (m_allow A), H].
  eapply step_trans; [exact (m_step A)|exact (m_step B)].
  intros s H; apply (m_back A), (m_back B); auto.
  intros s H He; apply (m_fwd B); auto. apply (m_fwd A); auto.
Qed.
Lemma sem_weak : forall X E1 E2 (e1 e : (nat -> ty) -> Prop), sem X E1 E2 e1 -> (forall s, unq s -> e s -> e1 s) -> sem X E1 E2 e.
Proof. intros X E1 E2 e1 e A H; split; [exact (m_step A)|exact (m_back A)| |exact (m_plain A)|exact (m_allow A)]. intros s [U K] He. apply (m_fwd A); auto. split; auto. Qed.
Lemma sem_mono : forall (X Y : nat -> Prop) E E' e, (forall i, X i -> Y i) -> sem X E E' e -> sem Y E E' e.
Proof.
  intros X Y E E' e S A; split; [eapply step_mono; [exact S|exact (m_step A)]| | |exact (m_plain A)|exact (m_allow A)].
  - intros s H; split; [apply H|]. intros c I Yc. destruct (s_keep (m_step A) c I) as [J|Xc]. apply H; auto.
    apply (m_back A); auto. eapply sx_sub; eauto.
  - intros s H He; split; [apply H|]. intros c I Yc. destruct (s_back (m_step A) c I) as [J|Xc]. apply H; auto.
    apply (m_fwd A) with (s := s); auto. eapply sx_sub; eauto.
Qed.
(** the domain does not change *)
Lemma step_none : forall X E E' v, step X E E' -> (lookup E v = None <-> lookup E' v = None).
Proof.
  intros X E E' v S. pose proof (step_cl v S) as K. split; intros L; apply lookup_none; intros c I M.
  - destruct (proj2 K) as (i & c' & I' & M' & _); [exists (id c), c; auto|]. eapply lookup_none in L; eauto.
  - destruct (proj1 K) as (i & c' & I' & M' & _); [exists (id c), c; auto|]. eapply lookup_none in L; eauto.
Qed.
Lemma names_step : forall X E E', step X E E' -> names_ok d E -> names_ok d E'.
Proof. intros X E E' S N v w L1 L2. apply N; eapply step_none; eauto. Qed.
Lemma proper_step : forall X E E' s, step X E E' -> proper d s E -> proper d s E'.
Proof.
  intros X E E' s S [A B]; split. intros v L. apply A. eapply step_none; eauto.
  intros v L. apply B. intros N; apply L. apply (proj1 (step_none v S)); auto.
Qed.
Lemma opened_step : forall X E E' t, step X E E' -> (opened E t = None <-> opened E' t = None).
Proof. intros X E E' t S. destruct t; cbn [opened]; try tauto. pose proof (step_none v S) as K. destruct (lookup E v), (lookup E' v); try tauto; exfalso; [destruct K as [_ K]; specialize (K eq_refl)|destruct K as [K _]; specialize (K eq_refl)]; discriminate. Qed.
Lemma opened_setq : forall E q t, opened E (setq q t) = opened E t.
Proof. destruct t; reflexivity. Qed.
Lemma plain_setq : forall q t, plain d (setq q t) <-> plain d t.
Proof. destruct t; reflexivity. Qed.
Lemma plain_stripref : forall t, plain d t -> stripref t = t.
Proof. destruct t; cbn [plain]; auto; contradiction. Qed.
Lemma plain_depth : forall t, plain d t -> depth t = 0.
Proof. destruct t; cbn [plain]; auto; contradiction. Qed.
Lemma put_same : forall E c, NoDup (map id E) -> In c E -> put E c = E.
Proof.
  intros E c N I. unfold put. rewrite <- (map_id E) at 2. apply map_ext_in. intros x J. destruct (Nat.eqb_spec (id x) (id c)) as [Q|Q]; auto.
  symmetry; eapply ids_inj; eauto.
Qed.
(** occurs answers true only if there is a way to the class *)
Lemma orall_true : forall l, orall l = Some true -> exists a, In a l /\ a = Some true.
Proof.
  induction l as [|x l IH]; intros H. discriminate. cbn [orall fold_right] in H. change (fold_right _ _ l) with (orall l) in H.
  destruct x as [x|]; [|discriminate]. destruct (orall l) as [y|] eqn:O; [|discriminate]. injection H as H.
  destruct x. exists (Some true); split; auto; now left. cbn [orb] in H; subst. destruct IH as (a & I & ->); auto. exists (Some true); split; auto; now right.
Qed.
Lemma occ_true : forall E c, ok_env E -> In c E -> forall f t, occ f E (vars c) t = Some true -> reach E (tvars t) (id c).
Proof.
  intros E c O Ic. induction f as [|f IH]; intros t H; [discriminate|]. cbn [occ] in H. apply orall_true in H as (a & I & ->). apply in_map_iff in I as (v & H & V).
  destruct (mem v (vars c)) eqn:M.
  - apply mem_In in M. exists v, (id c); split; auto; split; [exists c; auto|constructor].
  - destruct (lookup E v) as [c'|] eqn:L; [|discriminate]. apply lookup_some in L as [I' M']. destruct (bound c') as [b|] eqn:B; [|discriminate].
    apply IH in H as (u & i & U & K & P). exists v, (id c'); split; auto; split; [exists c'; auto|]. econstructor; [|exact P]. exists c', b, u; auto.
Qed.
Lemma occurs_true : forall E c v, ok_env E -> In c E -> In v (vars c) -> forall f t, occurs f E t v = Some true -> reach E (tvars t) (id c).
Proof. intros E c v O I M f t H. unfold occurs in H. rewrite (@lookup_in _ _ v O I M) in H. eapply occ_true; eauto. Qed.
Lemma not_isvar : forall E t v, ok_env E -> opened E t = None -> In v (tvars t) -> (exists i, cl E v i) -> isvar t = false.
Proof.
  intros E t v O Op V (i & c & I & M & _). destruct t; auto. destruct V as [<-|[]]. cbn [opened] in Op. rewrite (@lookup_in _ _ v0 O I M) in Op. discriminate.
Qed.
Lemma reach_size : forall X s E t c v, ok_env E -> closed X E -> plain_env d E -> sx X s E -> pre X E (tvars t) -> opened E t = None -> In c E -> In v (vars c) ->
  reach E (tvars t) (id c) -> size (s v) < size (val s t).
Proof.
  intros X s E t c v O Cl PE [U K] P Op Ic Mc (u & i & Iu & Cu & R).
  assert (Xi : X i) by (eapply pre_use; eauto).
  assert (A : size (s u) < size (val s t)) by (apply size_in; auto; eapply not_isvar; eauto).
  enough (B : forall w, In w (vars c) -> size (s w) <= size (s u)) by (specialize (B v Mc); lia).
  clear A P Op Iu. destruct Cu as (cu & Icu & Mu & Q). revert u cu Icu Mu Q Xi. remember (id c) as k eqn:Hk. induction R as [x|x y z Ed R IH]; intros u cu Icu Mu Q Xi w Mw; subst.
  - pose proof (@ids_inj E cu c (e_ids O) Icu Ic Q) as ->. destruct (K c Ic Xi) as [Ke _]. rewrite (Ke w u); auto.
  - destruct Ed as (c' & b & u' & I' & Q' & B & U' & cy & Icy & My & Qy).
    assert (c' = cu) as -> by (eapply ids_inj; [exact (e_ids O)| | |]; eauto).
    destruct (K cu Icu Xi) as [_ Kb]. destruct (PE cu b Icu B) as (_ & _ & Op).
    assert (L : size (s u') < size (val s b)) by (apply size_in; auto; eapply not_isvar; eauto; exists (id cy), cy; auto).
    rewrite (Kb b u B Mu), size_setq.
    assert (Xy : X y) by (eapply Cl; [exact Xi|]; exists cu, b, u'; repeat (split; auto); exists cy; auto).
    specialize (IH eq_refl u' cy Icy My Qy Xy w Mw). lia.
Qed.

Record ctx (X : nat -> Prop) (E : env) : Prop := { x_ok : ok_env E; x_cl : closed X E; x_plain : plain_env d E; x_names : names_ok d E }.
Lemma ctx_sem : forall X E E' e, ctx X E -> sem X E E' e -> ctx X E'.
Proof.
  intros X E E' e [A B C D'] S; split. exact (s_inv (m_step S)). eapply closed_step; eauto using m_step. exact (m_plain S). eapply names_step; eauto using m_step.
Qed.
Lemma ctx_sub : forall X Y E, ctx X E -> closed Y E -> ctx Y E.
Proof. intros X Y E [A B C D'] H; split; auto. Qed.
(** a changed class *)
Lemma change_sem : forall (X Y : nat -> Prop) E E' c1 c2 c' (e : (nat -> ty) -> Prop), ctx X E -> In c1 E -> In c2 E -> id c' = id c1 ->
  (forall x, In x E' <-> x = c' \/ (In x E /\ id x <> id c1 /\ id x <> id c2)) -> step X E E' ->
  ~ Y (id c1) -> ~ Y (id c2) -> (forall i, Y i -> X i) -> X (id c1) -> X (id c2) ->
  (forall s, unq s -> sx Y s E -> csat s c' -> csat s c1 /\ csat s c2) -> (forall s, unq s -> csat s c1 -> csat s c2 -> e s -> csat s c') ->
  (forall b, bound c' = Some b -> plain d b /\ qof b = noq /\ opened E b = None) -> (noallow E -> allow c' = false) -> sem X E E' e.
Proof.
  intros X Y E E' c1 c2 c' e CX I1 I2 H1 HE S NY1 NY2 YX X1 X2 Imp Conv PB AL. destruct CX as [O Cl PE _]. split; auto.
  - intros s [U K]. assert (SY : sx Y s E). { split; auto. intros x I Yx. apply K; auto. apply HE; right; split; auto; split; intros Q; rewrite Q in Yx; auto. }
    destruct (Imp s U SY) as [C1 C2]. { apply K; [apply HE; auto|rewrite H1; auto]. }
    split; auto. intros x I Xx. destruct (Nat.eq_dec (id x) (id c1)) as [Q|N1]. pose proof (@ids_inj E x c1 (e_ids O) I I1 Q) as ->; auto.
    destruct (Nat.eq_dec (id x) (id c2)) as [Q|N2]. pose proof (@ids_inj E x c2 (e_ids O) I I2 Q) as ->; auto. apply K; auto. apply HE; auto.
  - intros s [U K] He. split; auto. intros x I Xx. apply HE in I as [->|(I & _ & _)]; auto.
  - intros x b I B. assert (P : plain d b /\ qof b = noq /\ opened E b = None). { apply HE in I as [->|(I & _ & _)]; auto. apply (PE x); auto. }
    destruct P as (A1 & A2 & A3). split; auto; split; auto. apply (proj1 (opened_step b S)); exact A3.
  - intros H x I. apply HE in I as [->|(I & _ & _)]; auto.
Qed.
Definition goodb (X : nat -> Prop) (E : env) (e : (nat -> ty) -> Prop) (r : res bool) : Prop :=
  match r with Ret E' b => sem X E E' e /\ (if b then forall s, sx X s E' -> e s else forall s, sx X s E -> proper d s E -> ~ e s) | _ => True end.
Definition goodo (X : nat -> Prop) (E : env) (e : (nat -> ty) -> Prop) (t : ty) (r : res (option ty)) : Prop :=
  match r with
  | Ret E' (Some c) => sem X E E' e /\ (forall s, sx X s E' -> e s) /\ c = t
  | Ret E' None => sem X E E' e /\ forall s, sx X s E -> proper d s E -> ~ e s
  | _ => True
  end.
Definition goodc (X : nat -> Prop) (E : env) (e : (nat -> ty) -> Prop) (t : ty) (r : res (option ty)) : Prop :=
  match r with Ret E' (Some c) => sem X E E' e /\ (forall s, sx X s E' -> e s) /\ c = t | Ret E' None => sem X E E' e | _ => True end.
Definition goodp (X : nat -> Prop) (E : env) (e : (nat -> ty) -> Prop) (r : res bool) : Prop :=
  match r with Ret E' b => sem X E E' e /\ (b = true -> forall s, sx X s E' -> e s) | _ => True end.
Definition eqv (t1 t2 : ty) (s : nat -> ty) : Prop := val s t1 = val s t2.
Definition eqvs (l1 l2 : list ty) (s : nat -> ty) : Prop := map (val s) l1 = map (val s) l2.
Record semf (f : nat) : Prop := {
  g_exact : forall t1 t2 E X, ctx X E -> pre X E (tvars t1) -> pre X E (tvars t2) -> plain d t1 -> plain d t2 -> goodb X E (eqv t1 t2) (exact d f nowiden t1 t2 E);
  g_lists : forall l1 l2 E X, ctx X E -> pre X E (concat (map tvars l1)) -> pre X E (concat (map tvars l2)) -> Forall (plain d) l1 -> Forall (plain d) l2 ->
    goodb X E (eqvs l1 l2) (lists d f l1 l2 E);
  g_bv : forall v q t E X i, ctx X E -> cl E v i -> X i -> pre X E (tvars t) -> plain d t -> qof t = q -> opened E t = None ->
    goodb X E (eqv (TVar q v) t) (bind_var d f nowiden v q t E);
  g_vv : forall v1 v2 q E X i j, ctx X E -> cl E v1 i -> X i -> cl E v2 j -> X j -> goodb X E (eqv (TVar q v1) (TVar q v2)) (bind_vv d f nowiden v1 v2 E);
  g_inexact : forall t1 t2 E X, ctx X E -> pre X E (tvars t1) -> pre X E (tvars t2) -> plain d t1 -> plain d t2 -> qof t1 = qof t2 ->
    goodo X E (eqv t1 t2) t1 (inexact d f nowiden t1 t2 E);
  g_common : forall t1 t2 E X, ctx X E -> pre X E (tvars t1) -> pre X E (tvars t2) -> plain d t1 -> plain d t2 -> qof t1 = noq -> qof t2 = noq ->
    goodc X E (eqv t1 t2) t1 (common d f nowiden t1 t2 E);
  g_fp : forall l1 l2 E X, ctx X E -> pre X E (concat (map tvars l1)) -> pre X E (concat (map tvars l2)) -> Forall (fun p => plain d p /\ param_ok p) l1 -> Forall (fun p => plain d p /\ param_ok p) l2 ->
    goodp X E (eqvs (map strip l1) (map strip l2)) (fparams d f nowiden (map strip l1) (map strip l2) E)
}.
Lemma val_closed : forall s E q v, proper d s E -> opened E (TVar q v) = None -> val s (TVar q v) = TVar q v.
Proof. intros s E q v [P _] Op. cbn [val]. cbn [opened] in Op. destruct (lookup E v) eqn:L; [discriminate|]. rewrite (P v L). reflexivity. Qed.
Lemma compat_val : forall s E v t, proper d s E -> opened E t = None -> plain d t -> compat d v (val s t) = compat d v t.
Proof.
  intros s E v t P Op Pl. destruct t; cbn [plain] in Pl; try reflexivity; try contradiction.
  rewrite (@val_closed s E _ _ P Op). reflexivity.
Qed.
Lemma compat_setq : forall v q t, compat d v (setq q t) = compat d v t.
Proof. intros; unfold compat; destruct t; reflexivity. Qed.
Lemma eqv_var : forall s q v1 v2, unq s -> eqv (TVar q v1) (TVar q v2) s <-> s v1 = s v2.
Proof. intros s q v1 v2 U. unfold eqv; cbn [val]. split; [|congruence]. intros H. apply setq_inj in H; auto. rewrite !U; auto. Qed.
Lemma eqv_bind : forall s q v t, unq s -> qof t = q -> eqv (TVar q v) t s <-> s v = setq noq (val s t).
Proof.
  intros s q v t U Q. unfold eqv; cbn [val]. split; intros H.
  - rewrite <- H, setq_setq. symmetry. apply setq_same, U.
  - rewrite H, setq_setq. apply setq_same. rewrite qof_val; auto.
Qed.

Lemma goodb_ret : forall X E (e : (nat -> ty) -> Prop) (b : bool), ctx X E -> (if b then forall s, sx X s E -> e s else forall s, sx X s E -> proper d s E -> ~ e s) -> goodb X E e (Ret E b).
Proof. intros X E e b CX H. split; auto. apply sem_refl; [exact (x_ok CX)|exact (x_plain CX)]. Qed.
Lemma goodb_bind : forall X E (e1 e2 e : (nat -> ty) -> Prop) r k, ctx X E -> goodb X E e1 r -> (forall s, e s <-> e1 s /\ e2 s) ->
  (forall E', sem X E E' e1 -> goodb X E' e2 (k E')) -> goodb X E e (bind r (fun E (ok : bool) => if ok then k E else Ret E false)).
Proof.
  intros X E e1 e2 e r k CX R HE K. destruct r as [| | |E1 b]; cbn [bind]; try exact I. destruct R as [S1 R]. destruct b.
  - specialize (K E1 S1). destruct (k E1) as [| | |E2 b2]; try exact I. destruct K as [S2 K]. split.
    + eapply sem_trans; [exact S1|exact S2|intros s _ H; apply HE; auto..].
    + destruct b2. intros s H. apply HE. split; [apply R, (m_back S2); auto|auto].
      intros s H P He. apply HE in He as [H1 H2]. apply (K s); auto. apply (m_fwd S1); auto. eapply proper_step; [exact (m_step S1)|auto].
  - split. eapply sem_weak; [exact S1|]. intros s _ H; apply HE; auto. intros s H P He. apply (R s); auto. apply HE; auto.
Qed.
Lemma goodb_weak : forall X E (e1 e : (nat -> ty) -> Prop) r, (forall s, e s <-> e1 s) -> goodb X E e1 r -> goodb X E e r.
Proof.
  intros X E e1 e r H R. destruct r as [| | |E1 b]; try exact I. destruct R as [S1 R]; split. eapply sem_weak; [exact S1|]. intros; apply H; auto.
  destruct b; intros s K; [apply H; auto|]. intros P He. apply (R s); auto. apply H; auto.
Qed.
Lemma semf_all : forall f, semf f.
Proof.
  induction f as [|f IH]; [split; intros; exact I|]. split.
  - (* exact *)
    intros t1 t2 E X CX P1 P2 L1 L2. cbn [exact].
    destruct (qeq (qof t1) (qof t2)) eqn:Q; cbn [negb].
    2:{ apply goodb_ret; auto. intros s _ _ He. assert (qof t1 = qof t2) as K by (rewrite <- (qof_val s t1), <- (qof_val s t2); unfold eqv in He; congruence). apply qeq_eq in K; congruence. }
    apply qeq_eq in Q.
    destruct (opened E t1) as [v1|] eqn:O1.
    { pose proof O1 as O1'. apply opened_some in O1' as [T1 Lk1]. destruct t1; try discriminate. injection T1 as ->. cbn [qof] in *.
      destruct (@pre_one _ _ _ (x_ok CX) P1 Lk1) as (i & K1 & X1).
      destruct (opened E t2) as [v2|] eqn:O2.
      - pose proof O2 as O2'. apply opened_some in O2' as [T2 Lk2]. destruct t2; try discriminate. injection T2 as ->. cbn [qof] in *. subst q0.
        destruct (@pre_one _ _ _ (x_ok CX) P2 Lk2) as (j & K2 & X2).
        destruct (kind_eqb (kd d v1) (kd d v2)) eqn:KE. eapply (g_vv IH); eauto.
        apply goodb_ret; auto. intros s [U _] [_ Pr] He. apply eqv_var in He; auto.
        assert (C1 : compat d v1 (s v1) = true) by (apply Pr; destruct Lk1 as [? ->]; discriminate).
        assert (C2 : compat d v2 (s v1) = true) by (rewrite He; apply Pr; destruct Lk2 as [? ->]; discriminate).
        unfold compat in C1, C2. destruct (kd d v1), (kd d v2); try discriminate; rewrite ?C2, ?C1 in *; discriminate.
      - eapply (g_bv IH); eauto. }
    destruct (opened E t2) as [v2|] eqn:O2.
    { pose proof O2 as O2'. apply opened_some in O2' as [T2 Lk2]. destruct t2; try discriminate. injection T2 as ->. cbn [qof] in *.
      destruct (@pre_one _ _ _ (x_ok CX) P2 Lk2) as (j & K2 & X2).
      eapply goodb_weak; [|eapply (g_bv IH)]; eauto. intros s; unfold eqv; split; auto. }
    assert (NV : forall q v s, proper d s E -> (t1 = TVar q v \/ t2 = TVar q v) -> val s (TVar q v) = TVar q v).
    { intros q v s Pr [->| ->]; eapply val_closed; eauto. }
    assert (DF : (forall s, proper d s E -> val s t1 <> val s t2) -> goodb X E (eqv t1 t2) (Ret E false)).
    { intros H. apply goodb_ret; auto. intros s _ Pr. apply H; auto. }
    destruct t1, t2; cbn [tvars plain qof] in *; try contradiction;
      try (apply DF; intros s Pr; try (rewrite (NV q v s Pr (or_introl eq_refl))); try (rewrite (NV q0 v s Pr (or_intror eq_refl))); cbn [val]; discriminate);
      subst q0.
    + apply goodb_ret; auto. reflexivity.
    + apply goodb_ret; auto. unfold eqv; cbn [val]. destruct (Nat.eqb_spec k k0) as [->|N]; auto. intros s _ _ [= H]; auto.
    + eapply goodb_weak; [|apply (g_exact IH); auto]. unfold eqv; cbn [val]. intros s; split; congruence.
    + destruct d0 as [n1|]; [|contradiction]. destruct d1 as [n2|]; [|contradiction]. destruct (Nat.eqb_spec n1 n2) as [->|N].
      eapply goodb_weak; [|apply (g_exact IH); auto]. unfold eqv; cbn [val]. intros s; split; congruence.
      apply DF. intros s _ [= H _]; auto.
    + destruct L1 as [L1 L1'], L2 as [L2 L2']. apply fold_and in L1, L1', L2, L2'. apply pre_app in P1 as [P1 P1'], P2 as [P2 P2'].
      destruct (Nat.eqb_spec (length ps) (length ps0)) as [N1|N1]; cbn [andb].
      2:{ apply DF. intros s _ [= H _]. apply N1. apply (f_equal (@length ty)) in H. rewrite !map_length in H; auto. }
      destruct (Nat.eqb_spec (length rs) (length rs0)) as [N2|N2].
      2:{ apply DF. intros s _ [= _ H]. apply N2. apply (f_equal (@length ty)) in H. rewrite !map_length in H; auto. }
      apply goodb_bind with (e1 := eqvs (map strip ps) (map strip ps0)) (e2 := eqvs rs rs0); auto.
      * apply (g_lists IH); auto; rewrite ?tvars_strips; auto; rewrite Forall_map; [eapply Forall_impl; [|exact L1]|eapply Forall_impl; [|exact L2]]; intros a [A _]; apply plain_setq; auto.
      * intros s. unfold eqv, eqvs; cbn [val]. rewrite !map_map. rewrite !(map_ext _ _ (fun x => val_strip s x)). split. intros [= A B]; auto. intros [A B]; congruence.
      * intros E' S'. pose proof (ctx_sem CX S') as CX'. apply (g_lists IH); auto; eapply pre_step; eauto using m_step.
    + apply fold_and in L1, L2. destruct (Nat.eqb_spec n n0) as [->|N]. 2:{ apply DF. intros s _ [= H _]; auto. }
      eapply goodb_weak; [|apply (g_lists IH); auto]. unfold eqv, eqvs; cbn [val]. intros s; split; congruence.
    + apply goodb_ret; auto. unfold eqv; cbn [val]. destruct (Nat.eqb_spec n n0) as [->|N]; auto. intros s _ _ [= H]; auto.
    + destruct (Nat.eqb_spec (nm d v) (nm d v0)) as [N|N].
      * assert (v = v0) as ->. { cbn [opened] in O1, O2. apply (x_names CX); auto; [destruct (lookup E v)|destruct (lookup E v0)]; congruence. }
        apply goodb_ret; auto. reflexivity.
      * apply DF. intros s Pr. rewrite (NV q v s Pr (or_introl eq_refl)), (NV q v0 s Pr (or_intror eq_refl)). intros [= ->]; auto.
    + apply goodb_ret; auto. reflexivity.
    + apply goodb_ret; auto. reflexivity.
  - (* lists *)
    intros l1 l2 E X CX P1 P2 L1 L2. cbn [lists]. destruct l1 as [|x r1], l2 as [|y r2]; try (apply goodb_ret; auto; unfold eqvs; cbn [map]; first [reflexivity|discriminate]).
    cbn [map concat] in P1, P2. apply pre_app in P1 as [P1 P1'], P2 as [P2 P2']. inversion L1; inversion L2; subst.
    apply goodb_bind with (e1 := eqv x y) (e2 := eqvs r1 r2); auto.
    + apply (g_exact IH); auto.
    + intros s; unfold eqv, eqvs; cbn [map]. split. intros [= A B]; auto. intros [A B]; congruence.
    + intros E' S'. pose proof (ctx_sem CX S') as CX'. apply (g_lists IH); auto; eapply pre_step; eauto using m_step.
  - (* bind_var *)
    intros v q t E X i CX K Xi P L Q Op. cbn [bind_var]. rewrite (plain_stripref _ L). pose proof (x_ok CX) as O.
    destruct K as (c & Ic & Mc & <-). pose proof (@lookup_in _ _ v O Ic Mc) as Lk.
    destruct (compat d v t) eqn:Cp; cbn [negb].
    2:{ apply goodb_ret; auto. intros s [U _] Pr He. apply eqv_bind in He; auto. destruct Pr as [Pr1 Pr2].
        assert (C1 : compat d v (s v) = true) by (apply Pr2; rewrite Lk; discriminate). rewrite He, compat_setq, (@compat_val s E v t (conj Pr1 Pr2) Op L) in C1. congruence. }
    destruct (occurs f E t v) as [[|]|] eqn:Oc; [| |exact I].
    { apply goodb_ret; auto. intros s Sx Pr He. pose proof (@occurs_true _ _ _ O Ic Mc _ _ Oc) as R.
      pose proof (@reach_size X s E _ _ v O (x_cl CX) (x_plain CX) Sx P Op Ic Mc R) as Sz. apply eqv_bind in He; [|apply Sx|auto]. rewrite He, size_setq in Sz. lia. }
    pose proof (@okf_all d (S f)) as A. pose proof (@o_bv d (S f) A nowiden v q t E X (id c) O (x_cl CX) (ex_intro _ c (conj Ic (conj Mc eq_refl))) Xi P) as G.
    cbn [bind_var] in G. rewrite (plain_stripref _ L), Cp, Oc, Lk in G. cbn [negb] in G. rewrite Lk.
    destruct (bound c) as [b|] eqn:B.
    + pose proof (@bv_frame _ _ _ _ _ f O Ic Mc B Oc) as NR. set (Y := reach E (tvars b ++ tvars t)) in *.
      destruct (@x_plain X E CX _ _ Ic B) as (Lb & Qb & Opb).
      assert (Pb : pre X E (tvars b)) by (apply (@edge_pre X E c b); auto; apply CX).
      assert (YX : forall i, Y i -> X i) by (apply reach_sub; auto; [apply CX|apply pre_app; auto]).
      assert (PY : pre Y E (tvars b ++ tvars t)) by apply reach_pre. apply pre_app in PY as [PYb PYt].
      assert (CY : ctx Y E) by (eapply ctx_sub; [exact CX|apply reach_closed]).
      assert (W : wand nowiden (allow c, true) = nowiden) by reflexivity. rewrite W in *.
      pose proof (@g_inexact f IH (setq q b) t E Y CY) as GI. rewrite tvars_setq, plain_setq, qof_setq in GI. specialize (GI PYb PYt Lb L (eq_sym Q)).
      assert (EQ : forall s, sx X s E -> eqv (TVar q v) t s -> eqv (setq q b) t s).
      { intros s [U Ks] He. destruct (Ks c Ic Xi) as [_ Kb]. unfold eqv in *. cbn [val] in He. rewrite val_setq, <- He, (Kb b v B Mc), setq_setq. reflexivity. }
      destruct (inexact d f nowiden (setq q b) t E) as [| | |E1 [t1|]]; try exact I.
      * destruct GI as (S1 & T1 & ->). cbn [bind] in *.
        assert (I1 : In c E1) by (apply (s_out (m_step S1)); auto). pose proof (e_ids (s_inv (m_step S1))) as N1. rewrite (@get_in _ _ N1 I1) in *.
        assert (CC : C (id c) (vars c) (Some (setq noq (setq q b))) (allow c) = c). { rewrite setq_setq, (setq_same b Qb), <- B. destruct c; reflexivity. }
        rewrite CC, (put_same _ _ N1 I1) in *. split.
        -- pose proof (@sem_mono Y X _ _ _ YX S1) as SX. split; [exact (m_step SX)|exact (m_back SX)| |exact (m_plain SX)|exact (m_allow SX)].
           intros s Ks He. apply (m_fwd SX); auto.
        -- intros s Ks. pose proof (T1 s (@sx_sub X Y s E1 YX Ks)) as He. destruct Ks as [U Ks]. destruct (Ks c I1 Xi) as [_ Kb]. unfold eqv in *. cbn [val]. rewrite (Kb b v B Mc), setq_setq, <- val_setq. exact He.
      * destruct GI as (S1 & F1). cbn [bind]. split.
        -- pose proof (@sem_mono Y X _ _ _ YX S1) as SX. split; [exact (m_step SX)|exact (m_back SX)| |exact (m_plain SX)|exact (m_allow SX)].
           intros s Ks He. apply (m_fwd SX); auto.
        -- intros s Ks Pr He. apply (F1 s); auto. eapply sx_sub; eauto.
    + destruct G as [G _]. split.
      * apply change_sem with (Y := fun _ => False) (c1 := c) (c2 := c) (c' := C (id c) (vars c) (Some (setq noq t)) (fst nowiden && snd nowiden)); auto; try contradiction.
        -- intros x. rewrite (@in_put E _ c x Ic) by reflexivity. cbn [id]. tauto.
        -- intros s U _ [H1 H2]. cbn [vars bound] in *. split; (split; [exact H1|intros b0 v0 H; rewrite B in H; discriminate]).
        -- intros s U [H1 _] _ He. split; cbn [vars bound]; auto. intros b0 v0 [= <-] M0. rewrite (H1 v0 v M0 Mc). rewrite val_setq, setq_setq. apply eqv_bind in He; auto.
        -- cbn [bound]. intros b0 [= <-]. rewrite qof_setq, opened_setq. split; auto. apply plain_setq; auto.
      * intros s [U Ks]. apply eqv_bind; auto.
        destruct (Ks (C (id c) (vars c) (Some (setq noq t)) (fst nowiden && snd nowiden))) as [_ H]; auto.
        { apply (@in_put E _ c _ Ic); auto. }
        rewrite (H _ v eq_refl Mc), val_setq, setq_setq. reflexivity.
  - (* bind_vv *)
    intros v1 v2 q E X i j CX K1 X1 K2 X2. pose proof (x_ok CX) as O.
    pose proof (@okf_all d (S f)) as A. pose proof (@o_vv d (S f) A nowiden v1 v2 E X i j O (x_cl CX) K1 X1 K2 X2) as G. cbn [bind_vv] in *.
    destruct K1 as (c1 & I1 & M1 & <-), K2 as (c2 & I2 & M2 & <-). rewrite (@lookup_in _ _ v1 O I1 M1), (@lookup_in _ _ v2 O I2 M2) in *.
    destruct (Nat.eqb_spec (id c1) (id c2)) as [Q|N].
    { destruct G as [G _]. pose proof (@ids_inj E c1 c2 (e_ids O) I1 I2 Q) as <-. set (c' := C (id c1) (vars c1) (bound c1) _) in *. split.
      - apply change_sem with (Y := fun _ => False) (c1 := c1) (c2 := c1) (c' := c'); auto; try contradiction.
        + intros x. rewrite (@in_put E _ c1 x I1) by reflexivity. cbn [id c']. tauto.
        + cbn [bound c']. intros b B. apply (@x_plain X E CX _ _ I1 B).
        + intros _. cbn [allow c' nowiden fst snd andb]. apply andb_false_r.
      - intros s [U Ks]. apply eqv_var; auto. destruct (Ks c') as [H _]; auto. { apply (@in_put E _ c1 _ I1); auto. } }
    destruct (match bound c1 with Some b => occurs f E b v2 | None => Some false end) as [[|]|] eqn:Oc1; [| |exact I].
    { apply goodb_ret; auto. intros s Sx Pr He. destruct (bound c1) as [b|] eqn:B; [|discriminate]. apply eqv_var in He; [|apply Sx].
      destruct (@x_plain X E CX _ _ I1 B) as (_ & _ & Opb). pose proof (@occurs_true _ _ _ O I2 M2 _ _ Oc1) as R.
      assert (Pb : pre X E (tvars b)) by (apply (@edge_pre X E c1 b); auto; apply CX).
      pose proof (@reach_size X s E _ _ v2 O (x_cl CX) (x_plain CX) Sx Pb Opb I2 M2 R) as Sz. destruct Sx as [_ Ks]. destruct (Ks c1 I1 X1) as [_ Kb].
      rewrite <- He, (Kb b v1 B M1), size_setq in Sz. lia. }
    destruct (match bound c2 with Some b => occurs f E b v1 | None => Some false end) as [[|]|] eqn:Oc2; [| |exact I].
    { apply goodb_ret; auto. intros s Sx Pr He. destruct (bound c2) as [b|] eqn:B; [|discriminate]. apply eqv_var in He; [|apply Sx].
      destruct (@x_plain X E CX _ _ I2 B) as (_ & _ & Opb). pose proof (@occurs_true _ _ _ O I1 M1 _ _ Oc2) as R.
      assert (Pb : pre X E (tvars b)) by (apply (@edge_pre X E c2 b); auto; apply CX).
      pose proof (@reach_size X s E _ _ v1 O (x_cl CX) (x_plain CX) Sx Pb Opb I1 M1 R) as Sz. destruct Sx as [_ Ks]. destruct (Ks c2 I2 X2) as [_ Kb].
      rewrite He, (Kb b v2 B M2), size_setq in Sz. lia. }
    assert (V12 : forall v, In v (add_vars (vars c1) (vars c2)) <-> In v (vars c1) \/ In v (vars c2)) by (intros; apply add_vars_In).
    assert (V21 : forall v, In v (add_vars (vars c2) (vars c1)) <-> In v (vars c2) \/ In v (vars c1)) by (intros; apply add_vars_In).
    (* all variables of both classes are equal once v1 and v2 are *)
    assert (CJ : forall s c c', csat s c -> csat s c' -> forall a b, In a (vars c) -> In b (vars c') -> s a = s b -> forall u v, (In u (vars c) \/ In u (vars c')) -> (In v (vars c) \/ In v (vars c')) -> s u = s v).
    { intros s c c' [H1 _] [H2 _] a b Ha Hb Hab. assert (Z : forall u, In u (vars c) \/ In u (vars c') -> s u = s a). { intros u [H|H]; [apply H1; auto|rewrite Hab; apply H2; auto]. }
      intros u v Hu Hv. rewrite (Z u Hu), (Z v Hv). reflexivity. }
    destruct (bound c1) as [b1|] eqn:B1, (bound c2) as [b2|] eqn:B2.
    + assert (NR1 : ~ reach E (tvars b1 ++ tvars b2) (id c1)) by (eapply bv_frame; eauto).
      assert (NR2 : ~ reach E (tvars b1 ++ tvars b2) (id c2)).
      { intros H. apply reach_app in H as [H|H]. eapply occurs_sound; eauto. eapply acyc_not; eauto. }
      set (Y := reach E (tvars b1 ++ tvars b2)) in *.
      assert (YX : forall i, Y i -> X i) by (apply reach_sub; auto; [apply CX|apply pre_app; split; [apply (@edge_pre X E c1 b1)|apply (@edge_pre X E c2 b2)]; auto; apply CX]).
      assert (PY : pre Y E (tvars b1 ++ tvars b2)) by apply reach_pre. apply pre_app in PY as [PY1 PY2].
      assert (CY : ctx Y E) by (eapply ctx_sub; [exact CX|apply reach_closed]).
      destruct (@x_plain X E CX _ _ I1 B1) as (Lb1 & Qb1 & Opb1), (@x_plain X E CX _ _ I2 B2) as (Lb2 & Qb2 & Opb2).
      cbn [fst snd nowiden andb] in *.
      pose proof (@g_inexact f IH b1 b2 E Y CY PY1 PY2 Lb1 Lb2 (eq_trans Qb1 (eq_sym Qb2))) as GI. fold nowiden in *.
      assert (EQ : forall s, sx X s E -> eqv (TVar q v1) (TVar q v2) s -> eqv b1 b2 s).
      { intros s [U Ks] He. apply eqv_var in He; auto. destruct (Ks c1 I1 X1) as [_ Kb1], (Ks c2 I2 X2) as [_ Kb2]. rewrite (Kb1 _ _ B1 M1), (Kb2 _ _ B2 M2) in He.
        apply setq_inj in He; auto. rewrite !qof_val; congruence. }
      destruct (inexact d f nowiden b1 b2 E) as [| | |E1 [t1|]]; try exact I.
      * destruct GI as (S1 & T1 & ->). cbn [bind] in *.
        assert (J1 : In c1 E1) by (apply (s_out (m_step S1)); auto). assert (J2 : In c2 E1) by (apply (s_out (m_step S1)); auto).
        pose proof (e_ids (s_inv (m_step S1))) as N1. rewrite (@get_in _ _ N1 J1), (@get_in _ _ N1 J2) in *. rewrite (setq_same b1 Qb1) in *.
        set (c' := C (id c1) _ _ _) in *. set (E2 := erase (put E1 c') (id c2)) in *.
        pose proof (@sem_mono Y X _ _ _ YX S1) as SX. pose proof (ctx_sem CX SX) as CX1.
        assert (S2 : step X E1 E2).
        { apply merge_step with (Y := Y) (c1 := c1); auto; [apply CX1|eapply closed_step; [apply CY|exact (m_step S1)]|].
          intros b0 [= <-]. eapply pre_step; [exact PY1|exact (m_step S1)]. }
        assert (M : sem X E1 E2 (eqv (TVar q v1) (TVar q v2))).
        { apply change_sem with (Y := Y) (c1 := c1) (c2 := c2) (c' := c'); auto.
          - intros x. unfold E2. rewrite in_erase, (@in_put E1 c' c1 x J1) by reflexivity. cbn [id c']. split. intros [[->|?] ?]; tauto. intros [->|?]; [split; auto; congruence|tauto].
          - intros s U Ys [H1 H2]. cbn [vars bound c'] in *. pose proof (T1 s Ys) as He. unfold eqv in He. split; split.
            + intros; apply H1; apply V12; auto.
            + intros b0 v0 Hb Hv. rewrite B1 in Hb. injection Hb as <-. apply H2; auto. apply V12; auto.
            + intros; apply H1; apply V12; auto.
            + intros b0 v0 Hb Hv. rewrite B2 in Hb. injection Hb as <-. rewrite <- He. apply H2; auto. apply V12; auto.
          - intros s U C1 C2 He. apply eqv_var in He; auto. assert (Z := CJ s c1 c2 C1 C2 v1 v2 M1 M2 He). split; cbn [vars bound c'].
            + intros u v Hu Hv. apply Z; apply V12; auto.
            + intros b0 v [= <-] Hv. destruct C1 as [_ C1]. rewrite <- (C1 b1 v1 B1 M1). apply Z; [apply V12; auto|auto].
          - cbn [bound c']. intros b0 [= <-]. split; auto. split; auto. apply (proj1 (opened_step b1 (m_step S1))); auto. }
        split. { eapply sem_trans; [exact SX|exact M|auto|auto]. }
        intros s [U Ks]. apply eqv_var; auto. destruct (Ks c') as [H _]; auto. { unfold E2. apply in_erase; split; [apply (@in_put E1 c' c1 c' J1); auto|cbn [id c']; auto]. }
        apply H; apply V12; auto.
      * destruct GI as (S1 & F1). cbn [bind]. pose proof (@sem_mono Y X _ _ _ YX S1) as SX. split.
        -- split; [exact (m_step SX)|exact (m_back SX)| |exact (m_plain SX)|exact (m_allow SX)]. intros s Ks He. apply (m_fwd SX); auto.
        -- intros s Ks Pr He. apply (F1 s); auto. eapply sx_sub; eauto.
    + destruct G as [G _]. set (c' := C (id c1) _ _ _) in *. split.
      * apply change_sem with (Y := fun _ => False) (c1 := c1) (c2 := c2) (c' := c'); auto; try contradiction.
        -- intros x. rewrite in_erase, (@in_put E c' c1 x I1) by reflexivity. cbn [id c']. split. intros [[->|?] ?]; tauto. intros [->|?]; [split; auto; congruence|tauto].
        -- intros s U _ [H1 H2]. cbn [vars bound c'] in *. split; split.
           ++ intros; apply H1; apply V12; auto.
           ++ intros b0 v0 Hb Hv. apply H2; [congruence|apply V12; auto].
           ++ intros; apply H1; apply V12; auto.
           ++ congruence.
        -- intros s U C1 C2 He. apply eqv_var in He; auto. assert (Z := CJ s c1 c2 C1 C2 v1 v2 M1 M2 He). split; cbn [vars bound c'].
           ++ intros u v Hu Hv. apply Z; apply V12; auto.
           ++ intros b0 v [= <-] Hv. destruct C1 as [_ C1]. rewrite <- (C1 b1 v1 B1 M1). apply Z; [apply V12; auto|auto].
        -- cbn [bound c']. intros b0 [= <-]. apply (@x_plain X E CX _ _ I1 B1).
      * intros s [U Ks]. apply eqv_var; auto. destruct (Ks c') as [H _]; auto. { apply in_erase; split; [apply (@in_put E c' c1 c' I1); auto|cbn [id c']; auto]. }
        apply H; apply V12; auto.
    + destruct G as [G _]. set (c' := C (id c2) _ _ _) in *. split.
      * apply change_sem with (Y := fun _ => False) (c1 := c2) (c2 := c1) (c' := c'); auto; try contradiction.
        -- intros x. rewrite in_erase, (@in_put E c' c2 x I2) by reflexivity. cbn [id c']. split. intros [[->|?] ?]; tauto. intros [->|?]; [split; auto; congruence|tauto].
        -- intros s U _ [H1 H2]. cbn [vars bound c'] in *. split; split.
           ++ intros; apply H1; apply V21; auto.
           ++ intros b0 v0 Hb Hv. apply H2; [congruence|apply V21; auto].
           ++ intros; apply H1; apply V21; auto.
           ++ congruence.
        -- intros s U C1 C2 He. apply eqv_var in He; auto. assert (Z := CJ s c2 c1 C1 C2 v2 v1 M2 M1 (eq_sym He)). split; cbn [vars bound c'].
           ++ intros u v Hu Hv. apply Z; apply V21; auto.
           ++ intros b0 v [= <-] Hv. destruct C1 as [_ C1]. rewrite <- (C1 b2 v2 B2 M2). apply Z; [apply V21; auto|auto].
        -- cbn [bound c']. intros b0 [= <-]. apply (@x_plain X E CX _ _ I2 B2).
      * intros s [U Ks]. apply eqv_var; auto. destruct (Ks c') as [H _]; auto. { apply in_erase; split; [apply (@in_put E c' c2 c' I2); auto|cbn [id c']; auto]. }
        apply H; apply V21; auto.
    + destruct G as [G _]. set (c' := C (id c2) _ _ _) in *. split.
      * apply change_sem with (Y := fun _ => False) (c1 := c2) (c2 := c1) (c' := c'); auto; try contradiction.
        -- intros x. rewrite in_erase, (@in_put E c' c2 x I2) by reflexivity. cbn [id c']. split. intros [[->|?] ?]; tauto. intros [->|?]; [split; auto; congruence|tauto].
        -- intros s U _ [H1 H2]. cbn [vars bound c'] in *. split; split.
           ++ intros; apply H1; apply V21; auto.
           ++ congruence.
           ++ intros; apply H1; apply V21; auto.
           ++ congruence.
        -- intros s U C1 C2 He. apply eqv_var in He; auto. assert (Z := CJ s c2 c1 C1 C2 v2 v1 M2 M1 (eq_sym He)). split; cbn [vars bound c'].
           ++ intros u v Hu Hv. apply Z; apply V21; auto.
           ++ discriminate.
        -- discriminate.
      * intros s [U Ks]. apply eqv_var; auto. destruct (Ks c') as [H _]; auto. { apply in_erase; split; [apply (@in_put E c' c2 c' I2); auto|cbn [id c']; auto]. }
        apply H; apply V21; auto.
  - (* inexact *)
    intros t1 t2 E X CX P1 P2 L1 L2 Q. cbn [inexact].
    assert (W : forall s, eqv t1 t2 s <-> eqv (setq noq t1) (setq noq t2) s).
    { intros s; unfold eqv. rewrite !val_setq. split; [congruence|]. intros H. apply setq_inj in H; auto. rewrite !qof_val; auto. }
    pose proof (@g_exact f IH (setq noq t1) (setq noq t2) E X CX) as G. rewrite !tvars_setq, !plain_setq in G. specialize (G P1 P2 L1 L2).
    destruct (exact d f nowiden (setq noq t1) (setq noq t2) E) as [| | |E1 [|]]; try exact I; destruct G as [S1 G]; cbn [bind].
    + rewrite <- Q. destruct (qeq (qof t1) (qof t1)) eqn:QQ; [|assert (qof t1 = qof t1) as K by auto; apply qeq_eq in K; congruence].
      cbn [orb]. rewrite qor_same, setq_qof. split; [|split; auto].
      * eapply sem_weak; [exact S1|]. intros; apply W; auto.
      * intros s Ks. apply W; auto.
    + assert (S1' : sem X E E1 (eqv t1 t2)) by (eapply sem_weak; [exact S1|]; intros; apply W; auto).
      pose proof (ctx_sem CX S1) as CX1. pose proof (@g_common f IH (setq noq t1) (setq noq t2) E1 X CX1) as H. rewrite !tvars_setq, !plain_setq, !qof_setq in H.
      specialize (H (pre_step P1 (m_step S1)) (pre_step P2 (m_step S1)) L1 L2 eq_refl eq_refl).
      assert (NO : forall s, sx X s E -> proper d s E -> ~ eqv t1 t2 s). { intros s Ks Pr He. apply (G s); auto. apply W; auto. }
      destruct (common d f nowiden (setq noq t1) (setq noq t2) E1) as [| | |E2 [c|]]; try exact I; cbn [bind].
      * destruct H as (S2 & T2 & ->). rewrite <- Q, qor_same, setq_setq, setq_qof. split; [|split; auto].
        -- eapply sem_trans; [exact S1|exact S2|intros; apply W; auto..].
        -- intros s Ks. apply W; auto.
      * split; auto. eapply sem_trans; [exact S1|exact H|intros; apply W; auto..].
  - (* common *)
    intros t1 t2 E X CX P1 P2 L1 L2 Q1 Q2. cbn [common]. rewrite (plain_depth _ L1), (plain_depth _ L2). cbn [Nat.eqb negb].
    assert (RN : goodc X E (eqv t1 t2) t1 (Ret E None)) by (apply sem_refl; [exact (x_ok CX)|exact (x_plain CX)]).
    destruct t1; cbn [plain qof] in *; try exact RN; try contradiction.
    + (* basic *) destruct t2; cbn [plain qof] in *; try exact RN; try contradiction.
      * cbn [fst snd nowiden negb]. rewrite !andb_true_r. destruct (Nat.eqb_spec k k0) as [->|N]; [|exact RN]. cbn [negb]. subst q q0. cbn.
        split; [apply sem_refl; [exact (x_ok CX)|exact (x_plain CX)]|split; reflexivity].
      * destruct L2 as [-> _]. exact RN.
    + (* pointer *) destruct t2; cbn [plain qof] in *; try exact RN; try contradiction. cbn [fst snd nowiden andb tvars] in *. subst q q0.
      destruct (qmerge nowiden (qof t1) (qof t2)) eqn:QM; [|exact RN].
      assert (QQ : qof t1 = qof t2). { unfold qmerge in QM; cbn [fst snd nowiden] in QM. rewrite !orb_false_r in QM. apply andb_true_iff in QM as [A B]. apply qle_antisym; auto. }
      assert (W : forall s, eqv (Ptr noq t1) (Ptr noq t2) s <-> eqv (setq noq t1) (setq noq t2) s).
      { intros s; unfold eqv; cbn [val]. rewrite !val_setq. split; [congruence|]. intros H. apply setq_inj in H; [congruence|]. rewrite !qof_val; auto. }
      pose proof (@g_exact f IH (setq noq t1) (setq noq t2) E X CX) as G. rewrite !tvars_setq, !plain_setq in G. specialize (G P1 P2 L1 L2).
      destruct (exact d f nowiden (setq noq t1) (setq noq t2) E) as [| | |E1 [|]]; try exact I; destruct G as [S1 G]; cbn [bind].
      * apply qeq_eq in QQ. rewrite QQ. split; [|split; auto].
        -- eapply sem_weak; [exact S1|]. intros; apply W; auto.
        -- intros s Ks. apply W; auto.
      * assert (S1' : sem X E E1 (eqv (Ptr noq t1) (Ptr noq t2))) by (eapply sem_weak; [exact S1|]; intros; apply W; auto).
        pose proof (ctx_sem CX S1) as CX1.
        destruct (isftype d t1 && isftype d t2); [|exact S1']. destruct t1; try exact S1'. destruct t2; try exact I.
        destruct (_ && _); [|exact I]. destruct (_ && _); [|exact S1'].
        cbn [plain tvars qof] in *. subst q0. destruct L1 as [L1 L1'], L2 as [L2 L2']. apply fold_and in L1, L1', L2, L2'. apply pre_app in P1 as [P1 P1'], P2 as [P2 P2'].
        pose proof (@g_fp f IH ps ps0 E1 X CX1 (pre_step P1 (m_step S1)) (pre_step P2 (m_step S1)) L1 L2) as H.
        assert (W1 : forall s, eqv (Ptr noq (Fun q ps rs)) (Ptr noq (Fun q ps0 rs0)) s <-> eqvs (map strip ps) (map strip ps0) s /\ eqvs rs rs0 s).
        { intros s. unfold eqv, eqvs; cbn [val]. rewrite !map_map. rewrite !(map_ext _ _ (fun x => val_strip s x)). split. intros [= A B]; auto. intros [A B]; congruence. }
        destruct (fparams d f nowiden (map strip ps) (map strip ps0) E1) as [| | |E2 ok]; try exact I; cbn [bind]. destruct H as [S2 T2].
        assert (S12 : sem X E E2 (eqv (Ptr noq (Fun q ps rs)) (Ptr noq (Fun q ps0 rs0)))) by (eapply sem_trans; [exact S1'|exact S2|auto|intros s _ He; apply W1; auto]).
        destruct ok; [|exact S12]. pose proof (ctx_sem CX1 S2) as CX2.
        pose proof (@g_lists f IH rs rs0 E2 X CX2 (pre_step P1' (m_step S12)) (pre_step P2' (m_step S12)) L1' L2') as H.
        destruct (lists d f rs rs0 E2) as [| | |E3 ok]; try exact I; cbn [bind]. destruct H as [S3 T3].
        assert (S123 : sem X E E3 (eqv (Ptr noq (Fun q ps rs)) (Ptr noq (Fun q ps0 rs0)))) by (eapply sem_trans; [exact S12|exact S3|auto|intros s _ He; apply W1; auto]).
        destruct ok; [|exact S123]. split; auto. split; auto. intros s Ks. apply W1. split; auto. apply T2; auto. apply (m_back S3); auto.
    + (* enumeration *) destruct L1 as [C1 C2]. destruct t2; cbn [plain qof] in *; try (rewrite C1; exact RN).
      destruct (child d n n0) eqn:Ch; [|exact RN]. apply C2 in Ch; subst. split; [apply sem_refl; [exact (x_ok CX)|exact (x_plain CX)]|split; auto]. reflexivity.
    + (* zero *) destruct t2; try exact RN.
    + (* one *) destruct t2; try exact RN.
  - (* fparams *)
    intros l1 l2 E X CX P1 P2 L1 L2.
    assert (RT : forall b (e : (nat -> ty) -> Prop), (b = true -> forall s, sx X s E -> e s) -> goodp X E e (Ret E b)) by (intros; split; auto; apply sem_refl; [exact (x_ok CX)|exact (x_plain CX)]).
    destruct l1 as [|x r1], l2 as [|y r2]; try (apply RT; unfold eqvs; first [discriminate|reflexivity]).
    cbn [map concat] in P1, P2. apply pre_app in P1 as [P1 P1'], P2 as [P2 P2']. inversion L1 as [|? ? [Lx Kx] L1']; inversion L2 as [|? ? [Ly Ky] L2']; subst.
    cbn [map fparams]. set (next := fun (E0 : env) (ok : bool) => _).
    assert (HE : forall s, eqvs (map strip (x :: r1)) (map strip (y :: r2)) s <-> eqv (strip x) (strip y) s /\ eqvs (map strip r1) (map strip r2) s).
    { intros s. unfold eqv, eqvs; cbn [map]. split. intros [= A B]; auto. intros [A B]; congruence. }
    assert (NX : forall a b, pre X E (tvars a) -> pre X E (tvars b) -> plain d a -> plain d b -> (forall s, eqv (strip x) (strip y) s <-> eqv a b s) ->
      goodp X E (eqvs (map strip (x :: r1)) (map strip (y :: r2))) (bind (exact d f nowiden a b E) next)).
    { intros a b Pa Pb La Lb HW. pose proof (@g_exact f IH a b E X CX Pa Pb La Lb) as G.
      destruct (exact d f nowiden a b E) as [| | |E1 ok]; try exact I; cbn [bind]. destruct G as [S1 G].
      assert (S1' : sem X E E1 (eqvs (map strip (x :: r1)) (map strip (y :: r2)))) by (eapply sem_weak; [exact S1|]; intros s _ H; apply HW; apply HE in H; apply H).
      unfold next. destruct ok; [|split; auto; discriminate]. pose proof (ctx_sem CX S1) as CX1.
      pose proof (@g_fp f IH r1 r2 E1 X CX1 (pre_step P1' (m_step S1)) (pre_step P2' (m_step S1)) L1' L2') as H.
      destruct (fparams d f nowiden (map strip r1) (map strip r2) E1) as [| | |E2 ok]; try exact I. destruct H as [S2 T2]. split.
      - eapply sem_trans; [exact S1'|exact S2|auto|]. intros s _ H; apply HE in H; apply H.
      - intros Hk s Ks. apply HE. split; auto. apply HW, G, (m_back S2); auto. }
    assert (RF : goodp X E (eqvs (map strip (x :: r1)) (map strip (y :: r2))) (Ret E false)) by (apply RT; discriminate).
    assert (NS : goodp X E (eqvs (map strip (x :: r1)) (map strip (y :: r2))) (bind (exact d f nowiden (strip x) (strip y) E) next)).
    { apply NX; try (unfold strip; rewrite tvars_setq; auto); try (apply plain_setq; auto). reflexivity. }
    destruct x; try exact NS; [|contradiction Lx].
    destruct y; try exact RF. cbn [strip setq qof plain param_ok tvars] in *. destruct Kx as [Q1 B1], Ky as [Q2 B2].
    rewrite B1, B2. cbn [fst snd nowiden andb orb]. replace (qeq noq noq) with true by reflexivity.
    apply NX; try (rewrite tvars_setq; auto); try (apply plain_setq; auto).
    intros s. unfold eqv; cbn [strip setq qof val]. rewrite Q1, Q2, (setq_same x B1), (setq_same y B2). split; congruence.
Qed.
End D.

(** * A correct environment has a solution *)
Lemma val_ext : forall s s' t, (forall v, In v (tvars t) -> s v = s' v) -> val s t = val s' t.
Proof.
  intros s s'. apply (@ty_ind2 (fun t => (forall v, In v (tvars t) -> s v = s' v) -> val s t = val s' t)); cbn [tvars val]; intros; auto; try (rewrite H; auto; fail).
  - assert (A : forall l, Forall (fun t => (forall v, In v (tvars t) -> s v = s' v) -> val s t = val s' t) l -> (forall v, In v (concat (map tvars l)) -> s v = s' v) -> map (val s) l = map (val s') l).
    { intros l F K. apply map_ext_in. intros a Ia. rewrite Forall_forall in F. apply F; auto. intros v Iv. apply K. apply in_concat. exists (tvars a); split; auto. now apply in_map. }
    f_equal.
    + rewrite <- (map_map (val s) strip), <- (map_map (val s') strip). f_equal. apply A; auto. intros v I; apply H1, in_app_iff; auto.
    + apply A; auto. intros v I; apply H1, in_app_iff; auto.
  - f_equal. apply map_ext_in. intros a Ia. rewrite Forall_forall in H. apply H; auto. intros v Iv. apply H0. apply in_concat. exists (tvars a); split; auto. now apply in_map.
  - rewrite H; auto. now left.
Qed.
Fixpoint sg (E : env) (n : nat) (v : nat) : ty :=
  match n with
  | O => TVar noq v
  | S n => match lookup E v with
           | None => TVar noq v
           | Some c => match bound c with Some b => setq noq (val (sg E n) b) | None => TVar noq (hd v (vars c)) end
           end
  end.
Lemma sg_S : forall E n v, sg E (S n) v = match lookup E v with None => TVar noq v | Some c => match bound c with Some b => setq noq (val (sg E n) b) | None => TVar noq (hd v (vars c)) end end.
Proof. reflexivity. Qed.
Lemma sg_stable : forall E, ok_env E -> forall i, exists n, forall v, cl E v i -> forall m, n <= m -> sg E m v = sg E n v.
Proof.
  intros E O i. induction (e_acy O i) as [i _ IH].
  destruct (get E i) as [c|] eqn:G.
  2:{ exists 0. intros v (c & I & _ & Q). pose proof (find_none _ _ G c I) as F. cbv beta in F. rewrite Q, Nat.eqb_refl in F. discriminate. }
  apply get_some in G as [Ic Qc]. destruct (bound c) as [b|] eqn:B.
  - assert (A : exists n, forall u, In u (tvars b) -> forall m, n <= m -> sg E m u = sg E n u).
    { assert (Hl : forall u, In u (tvars b) -> forall j, cl E u j -> edge E i j) by (intros u U j K; exists c, b, u; auto).
      induction (tvars b) as [|u l IHl]. exists 0; intros u []. destruct IHl as (n & Hn); [intros; eapply Hl; eauto; now right|].
      destruct (lookup_dec E u) as [[j K]|N].
      - destruct (IH j) as (k & Hk); [apply (Hl u); auto; now left|]. exists (Nat.max n k). intros w [<-|I] m L.
        + rewrite (Hk u K m), (Hk u K (Nat.max n k)) by lia. auto.
        + rewrite (Hn w I m), (Hn w I (Nat.max n k)) by lia. auto.
      - exists n. intros w [<-|I] m L; auto. assert (Lk : lookup E u = None) by (apply lookup_none; intros c' I' M'; apply (N (id c')); exists c'; auto).
        assert (Z : forall k, sg E k u = TVar noq u) by (intros [|k]; auto; rewrite sg_S, Lk; auto). rewrite !Z; auto. }
    destruct A as (n & Hn). exists (S n). intros v (c' & I' & M' & Q') m L. assert (c' = c) as -> by (eapply ids_inj; [exact (e_ids O)| | |]; auto; congruence).
    destruct m as [|m]; [lia|]. rewrite !sg_S, (@lookup_in _ _ v O I' M'), B. f_equal. apply val_ext. intros u U. apply Hn; auto; lia.
  - exists 1. intros v (c' & I' & M' & Q') m L. assert (c' = c) as -> by (eapply ids_inj; [exact (e_ids O)| | |]; auto; congruence).
    destruct m as [|m]; [lia|]. rewrite !sg_S, (@lookup_in _ _ v O I' M'), B. reflexivity.
Qed.
Lemma solution : forall E, ok_env E -> exists s, solves s E /\ forall v, lookup E v = None -> s v = TVar noq v.
Proof.
  intros E O.
  assert (A : exists n, forall c, In c E -> forall v, In v (vars c) -> forall m, n <= m -> sg E m v = sg E n v).
  { assert (H : forall c, In c E -> In c E) by auto. revert H. generalize E at 1 3. intros l. induction l as [|c l IH]; intros H. exists 0; intros c [].
    destruct IH as (n & Hn); [intros; apply H; now right|]. destruct (sg_stable O (id c)) as (k & Hk). exists (Nat.max n k). intros c' [<-|I] v M m L.
    - assert (K : cl E v (id c)) by (exists c; split; [apply H; now left|auto]). rewrite (Hk v K m), (Hk v K (Nat.max n k)) by lia. auto.
    - rewrite (Hn c' I v M m), (Hn c' I v M (Nat.max n k)) by lia. auto. }
  destruct A as (n & Hn). exists (sg E n). split; [split|].
  - intros v. destruct n as [|n]; auto. rewrite sg_S. destruct (lookup E v) as [c|]; auto. destruct (bound c); auto. apply qof_setq.
  - intros c I.
    assert (Z : forall v, In v (vars c) -> sg E n v = match bound c with Some b => setq noq (val (sg E n) b) | None => TVar noq (hd v (vars c)) end).
    { intros v M. rewrite <- (Hn c I v M (S n)) by lia. rewrite sg_S, (@lookup_in _ _ v O I M). reflexivity. }
    split.
    + intros u v Mu Mv. rewrite (Z u Mu), (Z v Mv). destruct (bound c); auto. f_equal. destruct (vars c); [contradiction|reflexivity].
    + intros b v B M. rewrite (Z v M), B. reflexivity.
  - intros v L. destruct n as [|n]; auto. rewrite sg_S, L. reflexivity.
Qed.
