From Coq Require Import List Bool Arith Lia.
From Verif.WhenTree Require Import Model Spec.
Import ListNotations.
(** the source tree, at any stage *)
Fixpoint erase (t : tree) : src := match t with Leaf w _ _ _ => Clause w | Node AND _ l r => And (erase l) (erase r) | Node OR _ l r => Or (erase l) (erase r) end.
Lemma size_len : forall t, size t = length (whens (erase t)).
Proof. induction t as [|[] a l IHl r IHr]; cbn [size erase whens]; rewrite ?app_length; auto; lia. Qed.
Lemma erase_build : forall s, erase (build s) = s.
Proof. induction s; cbn [build erase]; congruence. Qed.
Lemma erase_paint : forall t aA oA aB oB, erase (fst (paint t aA oA aB oB)) = erase t.
Proof.
  induction t as [w a c d|[] a l IHl r IHr]; intros; cbn [paint]; auto.
  - destruct (paint l true oA false false) as [l1 [x1 y1]] eqn:E1. destruct (paint r true oA x1 y1) as [r1 [x2 y2]] eqn:E2. cbn [fst erase]. specialize (IHl true oA false false). specialize (IHr true oA x1 y1). rewrite E1 in IHl. rewrite E2 in IHr. cbn [fst] in *. congruence.
  - destruct (paint l aA true false false) as [l1 [x1 y1]] eqn:E1. destruct (paint r aA true x1 y1) as [r1 [x2 y2]] eqn:E2. cbn [fst erase]. specialize (IHl aA true false false). specialize (IHr aA true x1 y1). rewrite E1 in IHl. rewrite E2 in IHr. cbn [fst] in *. congruence.
Qed.
Lemma erase_collect : forall t p q, erase (collect t p q) = erase t.
Proof. induction t as [|[] a l IHl r IHr]; intros; cbn [collect erase]; rewrite ?IHl, ?IHr; auto. Qed.
Lemma erase_ready : forall s, erase (ready s) = s.
Proof. intros. unfold ready, painted. rewrite erase_collect, erase_paint. apply erase_build. Qed.
(** source trees have no field set *)
Fixpoint raw (t : tree) : Prop := match t with Leaf _ a c d => a = false /\ c = false /\ d = false | Node _ a l r => a = false /\ raw l /\ raw r end.
Lemma raw_build : forall s, raw (build s).
Proof. induction s; cbn [build raw]; auto. Qed.
(** how the fields are related once collected, in a context: ca, co = an AND, an OR above; pa = the parent is ambiguous; pand = the parent is AND *)
Fixpoint opt (t : tree) : bool := match t with Leaf w _ _ _ => w | Node _ _ l r => opt l && opt r end.
Fixpoint good (t : tree) (aA oA pa pand : bool) : Prop :=
  match t with
  | Leaf w a c d => c = pa /\ d = pand && w /\ a = w
  | Node o a l r =>
      let p := match o with AND => true | OR => false end in
      good l (aA || p) (oA || negb p) a p /\ good r (aA || p) (oA || negb p) a p /\ (a = true -> amb l = true /\ amb r = true) /\
      (amb l = true -> amb r = true -> aA || p = true -> oA || negb p = true -> a = true)
  end.
Lemma amb_collect : forall t p q, amb (collect t p q) = amb t.
Proof. destruct t; auto. Qed.
Lemma paint_good : forall t aA oA aB oB pa pand, raw t -> good (collect (fst (paint t aA oA aB oB)) pa pand) aA oA pa pand.
Proof.
  induction t as [w a c d|[] a l IHl r IHr]; intros aA oA aB oB pa pand R; cbn [raw] in R; cbn [paint].
  - destruct R as (-> & -> & ->). cbn [fst collect good]. destruct w; auto.
  - destruct R as (-> & R1 & R2). destruct (paint l true oA false false) as [l1 [x1 y1]] eqn:E1. destruct (paint r true oA x1 y1) as [r1 [x2 y2]] eqn:E2. cbn [fst collect good]. rewrite !amb_collect.
    specialize (IHl true oA false false). specialize (IHr true oA x1 y1). rewrite E1 in IHl. rewrite E2 in IHr. cbn [fst negb] in *. rewrite !orb_true_r, !orb_false_r. split; [auto|split; [auto|split]].
    + destruct (amb l1), (amb r1); cbn [andb]; auto; discriminate.
    + intros -> -> _ ->. auto.
  - destruct R as (-> & R1 & R2). destruct (paint l aA true false false) as [l1 [x1 y1]] eqn:E1. destruct (paint r aA true x1 y1) as [r1 [x2 y2]] eqn:E2. cbn [fst collect good]. rewrite !amb_collect.
    specialize (IHl aA true false false). specialize (IHr aA true x1 y1). rewrite E1 in IHl. rewrite E2 in IHr. cbn [fst negb] in *. rewrite !orb_true_r, !orb_false_r. split; [auto|split; [auto|split]].
    + destruct (amb l1), (amb r1); cbn [andb]; auto; discriminate.
    + intros -> -> -> _. cbn. apply orb_true_r.
Qed.
Lemma ready_good : forall s, good (ready s) false false false false.
Proof. intros. apply paint_good. apply raw_build. Qed.
(** all leaves collected *)
Fixpoint full (t : tree) : Prop := match t with Leaf _ _ c _ => c = true | Node _ _ l r => full l /\ full r end.
Lemma good_amb : forall t aA oA pa pand, good t aA oA pa pand -> opt t = true -> aA = true -> oA = true -> amb t = true.
Proof.
  induction t as [w a c d|o a l IHl r IHr]; intros aA oA pa pand G O E1 E2; cbn [good opt amb] in *; [destruct G as (_ & _ & ->); auto|].
  apply andb_true_iff in O. destruct O as [O1 O2]. destruct G as (G1 & G2 & _ & G3). subst. cbn [orb] in *. apply G3; auto; [eapply IHl|eapply IHr]; eauto.
Qed.
Lemma good_full : forall t aA oA pa pand, good t aA oA pa pand -> opt t = true -> match t with Leaf _ _ _ _ => pa = true | Node AND _ _ _ => oA = true | Node OR _ _ _ => aA = true end -> full t.
Proof.
  induction t as [w a c d|o a l IHl r IHr]; intros aA oA pa pand G O C; cbn [good opt full] in *; [destruct G as (-> & _); auto|].
  apply andb_true_iff in O. destruct O as [O1 O2]. destruct G as (G1 & G2 & _ & G3).
  assert (X : aA || (match o with AND => true | OR => false end) = true /\ oA || negb (match o with AND => true | OR => false end) = true) by (destruct o; subst; cbn; rewrite ?orb_true_r; auto). destruct X as [X1 X2]. rewrite X1, X2 in *.
  assert (A : a = true) by (apply G3; auto; [eapply (good_amb l)|eapply (good_amb r)]; eauto).
  split; [eapply IHl|eapply IHr]; eauto; [destruct l as [|[] ]|destruct r as [|[] ]]; auto.
Qed.
(** disabled subtrees *)
Lemma off_opt : forall t cond ran i, sem (erase t) cond ran i = None -> opt t = true.
Proof.
  induction t as [w a c d|[] a l IHl r IHr]; intros cond ran i H; cbn [erase sem opt] in *.
  - destruct w; auto; discriminate.
  - destruct (sem (erase l) cond ran i) eqn:E1; destruct (sem (erase r) cond ran (i + length (whens (erase l)))) eqn:E2; try discriminate. rewrite (IHl _ _ _ E1), (IHr _ _ _ E2). auto.
  - destruct (sem (erase l) cond ran i) eqn:E1; destruct (sem (erase r) cond ran (i + length (whens (erase l)))) eqn:E2; try discriminate. rewrite (IHl _ _ _ E1), (IHr _ _ _ E2). auto.
Qed.
Lemma full_ws : forall t cond ran i, full t -> sem (erase t) cond ran i = None -> ws t cond i = false.
Proof.
  induction t as [w a c d|[] a l IHl r IHr]; intros cond ran i F H; cbn [erase sem full ws] in *.
  - subst. destruct w, (cond i); auto; discriminate.
  - rewrite size_len. destruct F. destruct (sem (erase l) cond ran i) eqn:E1; destruct (sem (erase r) cond ran (i + length (whens (erase l)))) eqn:E2; try discriminate. rewrite (IHl _ _ _ H0 E1), (IHr _ _ _ H1 E2). auto.
  - rewrite size_len. destruct F. destruct (sem (erase l) cond ran i) eqn:E1; destruct (sem (erase r) cond ran (i + length (whens (erase l)))) eqn:E2; try discriminate. rewrite (IHl _ _ _ H0 E1), (IHr _ _ _ H1 E2). auto.
Qed.
Lemma ws_off : forall t aA oA pa pand cond ran i, good t aA oA pa pand -> (pa = true -> amb t = true) -> ws t cond i = false -> sem (erase t) cond ran i = None.
Proof.
  induction t as [w a c d|o a l IHl r IHr]; intros aA oA pa pand cond ran i G PA H; cbn [good amb ws] in *.
  - destruct G as (-> & _ & ->). destruct pa; [|discriminate]. rewrite PA by auto. cbn [erase sem]. rewrite H. auto.
  - destruct G as (G1 & G2 & G3 & _). destruct (ws l cond i) eqn:W1; destruct (ws r cond (i + size l)) eqn:W2; try discriminate. rewrite size_len in W2.
    assert (X1 : sem (erase l) cond ran i = None) by (eapply IHl; eauto; intros X; apply G3 in X; tauto). assert (X2 : sem (erase r) cond ran (i + length (whens (erase l))) = None) by (eapply IHr; eauto; intros X; apply G3 in X; tauto).
    destruct o; cbn [erase sem]; rewrite X1, X2; auto.
Qed.
(** performing assignments *)
Lemma perform_app : forall a b f, perform (a ++ b) f = perform b (perform a f).
Proof. induction a as [|[i x] a IH]; intros; cbn [app perform]; auto. Qed.
Lemma perform_out : forall l f j, (forall i x, In (i, x) l -> i <> j) -> perform l f j = f j.
Proof. induction l as [|[i x] l IH]; intros f j H; cbn [perform]; auto. rewrite IH by (intros; eapply H; right; eauto). destruct (Nat.eqb_spec j i); auto. subst. exfalso. eapply H; [left; eauto|auto]. Qed.
Lemma perform_ext : forall l f g j, f j = g j -> perform l f j = perform l g j.
Proof. induction l as [|[i x] l IH]; intros f g j H; cbn [perform]; auto. apply IH. destruct (j =? i); auto. Qed.
Lemma sub_idx : forall t b i, snd (sub t b i) = i + size t /\ forall j x, In (j, x) (fst (sub t b i)) -> i <= j < i + size t.
Proof.
  induction t as [w a c d|o a l IHl r IHr]; intros b i; cbn [sub size].
  - split; auto. cbn [fst]. destruct (b && negb d); [|destruct (negb b && d)]; cbn [In]; intros j x H; try tauto; destruct H as [H|[]]; injection H as <- <-; lia.
  - specialize (IHl b i). destruct (sub l b i) as [x i1]. cbn [fst snd] in IHl. destruct IHl as [-> IHl]. specialize (IHr b (i + size l)). destruct (sub r b (i + size l)) as [y i2]. cbn [fst snd] in *. destruct IHr as [-> IHr]. split; [lia|].
    intros j z H. assert (HH : In (j, z) x \/ In (j, z) y). { destruct (match o with AND => b | OR => negb b end); [apply in_app_or; auto|]. destruct (length x <? length y); auto. }
    destruct HH as [HH|HH]; [apply IHl in HH|apply IHr in HH]; lia.
Qed.
Lemma assign_idx : forall t cond i, snd (assign t cond i) = i + size t /\ forall j x, In (j, x) (fst (assign t cond i)) -> i <= j < i + size t.
Proof.
  induction t as [w a c d|o a l IHl r IHr]; intros cond i; [cbn; split; auto; tauto|]. cbn [assign].
  destruct (negb (ws l cond i) && negb (ws r cond (i + size l))); [apply sub_idx|]. cbn [size].
  pose proof (sub_idx l (match o with AND => true | OR => false end) i) as SL. specialize (IHl cond i).
  destruct (negb (ws l cond i)); [|destruct (negb (ws r cond (i + size l)))].
  - destruct (sub l _ i) as [x i1]. cbn [fst snd] in SL. destruct SL as [-> SL]. specialize (IHr cond (i + size l)). destruct (assign r cond (i + size l)) as [y i2]. cbn [fst snd] in *. destruct IHr as [-> IHr]. split; [lia|]. intros j z H. apply in_app_or in H. destruct H as [H|H]; [apply SL in H|apply IHr in H]; lia.
  - destruct (assign l cond i) as [x i1]. cbn [fst snd] in IHl. destruct IHl as [-> IHl]. pose proof (sub_idx r (match o with AND => true | OR => false end) (i + size l)) as SR. destruct (sub r _ (i + size l)) as [y i2]. cbn [fst snd] in *. destruct SR as [-> SR]. split; [lia|]. intros j z H. apply in_app_or in H. destruct H as [H|H]; [apply IHl in H|apply SR in H]; lia.
  - destruct (assign l cond i) as [x i1]. cbn [fst snd] in IHl. destruct IHl as [-> IHl]. specialize (IHr cond (i + size l)). destruct (assign r cond (i + size l)) as [y i2]. cbn [fst snd] in *. destruct IHr as [-> IHr]. split; [lia|]. intros j z H. apply in_app_or in H. destruct H as [H|H]; [apply IHl in H|apply IHr in H]; lia.
Qed.
Lemma pred_ext : forall t f g i, (forall j, i <= j < i + size t -> f j = g j) -> pred t f i = pred t g i.
Proof.
  induction t as [w a c d|[] a l IHl r IHr]; intros f g i H; cbn [pred size] in *; [rewrite H by lia; auto| |]; rewrite (IHl f g i), (IHr f g (i + size l)); auto; intros; apply H; lia.
Qed.
(** [f] holds the initial status of every leaf of t *)
Definition inits (t : tree) (cond : nat -> bool) (i : nat) (f : nat -> status) : Prop := forall j, i <= j < i + size t -> f j = init t cond i j.
Lemma inits_l : forall o a l r cond i f, inits (Node o a l r) cond i f -> inits l cond i f.
Proof. intros o a l r cond i f H j J. rewrite H by (cbn [size]; lia). cbn [init]. destruct (Nat.ltb_spec j (i + size l)); auto; lia. Qed.
Lemma inits_r : forall o a l r cond i f, inits (Node o a l r) cond i f -> inits r cond (i + size l) f.
Proof. intros o a l r cond i f H j J. rewrite H by (cbn [size]; lia). cbn [init]. destruct (Nat.ltb_spec j (i + size l)); auto; lia. Qed.
Lemma sub_pred : forall t b i aA oA pa pand cond ran f, good t aA oA pa pand -> sem (erase t) cond ran i = None -> inits t cond i f -> pred t (perform (fst (sub t b i)) f) i = b.
Proof.
  induction t as [w a c d|o a l IHl r IHr]; intros b i aA oA pa pand cond ran f G N I.
  - cbn [good erase sem] in *. destruct G as (_ & -> & _). assert (w = true /\ cond i = false) as [-> C] by (destruct w, (cond i); auto; discriminate). assert (F : f i = if pand then RUN else UNSAT) by (rewrite I by (cbn [size]; lia); cbn [init]; rewrite Nat.eqb_refl, C; destruct pand; auto).
    cbn [sub pred fst]. destruct b, pand; cbn [andb negb perform]; rewrite ?Nat.eqb_refl, ?F; auto.
  - cbn [good] in G. destruct G as (G1 & G2 & _ & _). assert (N1 : sem (erase l) cond ran i = None /\ sem (erase r) cond ran (i + size l) = None). { rewrite size_len. destruct o; cbn [erase sem] in N; destruct (sem (erase l) cond ran i), (sem (erase r) cond ran (i + length (whens (erase l)))); try discriminate; auto. }
    destruct N1 as [N1 N2]. pose proof (inits_l _ _ _ _ _ _ _ I) as I1. pose proof (inits_r _ _ _ _ _ _ _ I) as I2.
    cbn [sub]. specialize (IHl b i _ _ _ _ cond ran f G1 N1 I1). specialize (IHr b (i + size l) _ _ _ _ cond ran f G2 N2 I2). pose proof (sub_idx l b i) as SL. destruct (sub l b i) as [x i1]. cbn [fst snd] in SL. destruct SL as [-> SL]. pose proof (sub_idx r b (i + size l)) as SR. destruct (sub r b (i + size l)) as [y i2]. cbn [fst snd] in *. destruct SR as [_ SR].
    assert (XY : pred l (perform (x ++ y) f) i = b /\ pred r (perform (x ++ y) f) (i + size l) = b).
    { rewrite perform_app. split.
      - rewrite <- IHl. apply pred_ext. intros j J. apply perform_out. intros k z K. apply SR in K. lia.
      - rewrite <- IHr. apply pred_ext. intros j J. apply perform_ext. apply perform_out. intros k z K. apply SL in K. lia. }
    destruct XY as [X Y].
    destruct o, b; cbn [negb pred]; rewrite ?X, ?Y; auto; destruct (length x <? length y); cbn [pred]; rewrite ?IHl, ?IHr, ?andb_false_r, ?orb_true_r; auto.
Qed.
(** the statuses that the disabled clauses keep *)
Definition keeps (t : tree) (cond : nat -> bool) (i : nat) (g f : nat -> status) : Prop := forall j, nth_error (whens (erase t)) j = Some true -> cond (i + j) = false -> f (i + j) = g (i + j).
Lemma keeps_l : forall o a l r cond i f g, keeps (Node o a l r) cond i g f -> keeps l cond i g f.
Proof. intros o a l r cond i f g H j J. apply H. destruct o; cbn [erase whens]; rewrite nth_error_app1; auto; apply nth_error_Some; congruence. Qed.
Lemma keeps_r : forall o a l r cond i f g, keeps (Node o a l r) cond i g f -> keeps r cond (i + size l) g f.
Proof. intros o a l r cond i f g H j J C. replace (i + size l + j) with (i + (size l + j)) in * by lia. apply H; auto. destruct o; cbn [erase whens]; rewrite size_len, nth_error_app2 by lia; rewrite <- J; f_equal; lia. Qed.
Lemma keeps_ext : forall t cond i g g' f, keeps t cond i g f -> (forall j, i <= j < i + size t -> g' j = g j) -> keeps t cond i g' f.
Proof. intros t cond i g g' f K H j J C. rewrite H; auto. rewrite size_len. split; [lia|]. assert (j < length (whens (erase t))) by (apply nth_error_Some; congruence). lia. Qed.
Lemma off_pred : forall t cond ran i g f, sem (erase t) cond ran i = None -> keeps t cond i g f -> pred t f i = pred t g i.
Proof.
  induction t as [w a c d|o a l IHl r IHr]; intros cond ran i g f N K.
  - cbn [erase sem pred] in *. destruct w; [|discriminate]. destruct (cond i) eqn:C; [discriminate|]. specialize (K 0 eq_refl). rewrite Nat.add_0_r in K. rewrite K; auto.
  - pose proof (keeps_l _ _ _ _ _ _ _ _ K) as K1. pose proof (keeps_r _ _ _ _ _ _ _ _ K) as K2. assert (N1 : sem (erase l) cond ran i = None /\ sem (erase r) cond ran (i + size l) = None). { rewrite size_len. destruct o; cbn [erase sem] in N; destruct (sem (erase l) cond ran i), (sem (erase r) cond ran (i + length (whens (erase l)))); try discriminate; auto. }
    destruct N1 as [N1 N2]. destruct o; cbn [pred]; rewrite (IHl _ _ _ _ _ N1 K1), (IHr _ _ _ _ _ N2 K2); auto.
Qed.
Definition runs (f : nat -> status) : nat -> bool := fun j => is_run (f j).
(** what the statuses of t's leaves make of t in its place: right where something is left of it, and otherwise neutral *)
Definition means (t : tree) (aA oA pand : bool) (cond : nat -> bool) (i : nat) (f : nat -> status) : Prop :=
  match sem (erase t) cond (runs f) i with
  | Some b => pred t f i = b
  | None => match t with Leaf _ _ _ _ => pred t f i = pand | Node AND _ _ _ => oA = false /\ pred t f i = true | Node OR _ _ _ => aA = false /\ pred t f i = false end
  end.
Lemma assign_means : forall t aA oA pa pand cond i f0 f, good t aA oA pa pand -> (pa = true -> amb t = true) -> inits t cond i f0 -> ws t cond i = true -> keeps t cond i (perform (fst (assign t cond i)) f0) f -> means t aA oA pand cond i f.
Proof.
  induction t as [w a c d|o a l IHl r IHr]; intros aA oA pa pand cond i f0 f G PA I W K.
  - unfold means. cbn [good erase sem amb] in *. destruct (w && negb (cond i)) eqn:E; [|reflexivity]. apply andb_true_iff in E. destruct E as [-> C]. apply negb_true_iff in C. cbn [assign fst perform] in K. specialize (K 0 eq_refl). rewrite Nat.add_0_r in K. cbn [pred]. rewrite K by auto. rewrite I by (cbn [size]; lia). cbn [init]. rewrite Nat.eqb_refl, C. destruct G as (_ & -> & _). destruct pand; auto.
  - pose proof G as GG. cbn [good] in G. destruct G as (G1 & G2 & G3 & _). pose proof (inits_l _ _ _ _ _ _ _ I) as I1. pose proof (inits_r _ _ _ _ _ _ _ I) as I2. pose proof (keeps_l _ _ _ _ _ _ _ _ K) as K1. pose proof (keeps_r _ _ _ _ _ _ _ _ K) as K2.
    assert (P1 : a = true -> amb l = true) by (intros; apply G3; auto). assert (P2 : a = true -> amb r = true) by (intros; apply G3; auto).
    set (p := match o with AND => true | OR => false end) in *.
    (* each child: as an enabled subtree, or removed and assigned the neutral value *)
    assert (L : (ws l cond i = true /\ means l (aA || p) (oA || negb p) p cond i f) \/ (sem (erase l) cond (runs f) i = None /\ pred l f i = p)).
    { cbn [ws] in W. cbn [assign] in K1. fold p in K1. destruct (ws l cond i) eqn:W1.
      - left. split; auto. cbn [negb andb] in K1. destruct (ws r cond (i + size l)) eqn:W2; cbn [negb] in K1.
        + pose proof (assign_idx l cond i) as SL. destruct (assign l cond i) as [x i1] eqn:EL. cbn [fst snd] in SL. destruct SL as [-> SL]. pose proof (assign_idx r cond (i + size l)) as SR. destruct (assign r cond (i + size l)) as [y i2]. cbn [fst snd] in *. destruct SR as [_ SR].
          eapply (IHl _ _ a p cond i f0 f); eauto. rewrite EL. cbn [fst]. eapply keeps_ext; [exact K1|]. intros j J. rewrite perform_app. symmetry. apply perform_out. intros k z Q. apply SR in Q. lia.
        + pose proof (assign_idx l cond i) as SL. destruct (assign l cond i) as [x i1] eqn:EL. cbn [fst snd] in SL. destruct SL as [-> SL]. pose proof (sub_idx r p (i + size l)) as SR. destruct (sub r p (i + size l)) as [y i2]. cbn [fst snd] in *. destruct SR as [_ SR].
          eapply (IHl _ _ a p cond i f0 f); eauto. rewrite EL. cbn [fst]. eapply keeps_ext; [exact K1|]. intros j J. rewrite perform_app. symmetry. apply perform_out. intros k z Q. apply SR in Q. lia.
      - right. destruct (ws r cond (i + size l)) eqn:W2; [|discriminate]. cbn [negb andb] in K1.
        assert (N : sem (erase l) cond (runs f) i = None) by (eapply (ws_off l); eauto). split; auto.
        pose proof (sub_idx l p i) as SL. pose proof (sub_pred l p i _ _ _ _ cond (runs f) f0 G1 N I1) as V. destruct (sub l p i) as [x i1]. cbn [fst snd] in SL. destruct SL as [-> SL]. pose proof (assign_idx r cond (i + size l)) as SR. destruct (assign r cond (i + size l)) as [y i2]. cbn [fst snd] in *. destruct SR as [_ SR].
        rewrite <- V. eapply (off_pred l cond (runs f)); eauto. eapply keeps_ext; [exact K1|]. intros j J. rewrite perform_app. symmetry. apply perform_out. intros k z Q. apply SR in Q. lia. }
    assert (R : (ws r cond (i + size l) = true /\ means r (aA || p) (oA || negb p) p cond (i + size l) f) \/ (sem (erase r) cond (runs f) (i + size l) = None /\ pred r f (i + size l) = p)).
    { cbn [ws] in W. cbn [assign] in K2. fold p in K2. destruct (ws r cond (i + size l)) eqn:W2.
      - left. split; auto. rewrite andb_false_r in K2. destruct (ws l cond i) eqn:W1; cbn [negb] in K2.
        + pose proof (assign_idx l cond i) as SL. destruct (assign l cond i) as [x i1] eqn:EL. cbn [fst snd] in SL. destruct SL as [-> SL]. pose proof (assign_idx r cond (i + size l)) as SR. destruct (assign r cond (i + size l)) as [y i2] eqn:ER. cbn [fst snd] in *. destruct SR as [_ SR].
          eapply (IHr _ _ a p cond (i + size l) f0 f); eauto. rewrite ER. cbn [fst]. eapply keeps_ext; [exact K2|]. intros j J. rewrite perform_app. apply perform_ext. symmetry. apply perform_out. intros k z Q. apply SL in Q. lia.
        + pose proof (sub_idx l p i) as SL. destruct (sub l p i) as [x i1] eqn:EL. cbn [fst snd] in SL. destruct SL as [-> SL]. pose proof (assign_idx r cond (i + size l)) as SR. destruct (assign r cond (i + size l)) as [y i2] eqn:ER. cbn [fst snd] in *. destruct SR as [_ SR].
          eapply (IHr _ _ a p cond (i + size l) f0 f); eauto. rewrite ER. cbn [fst]. eapply keeps_ext; [exact K2|]. intros j J. rewrite perform_app. apply perform_ext. symmetry. apply perform_out. intros k z Q. apply SL in Q. lia.
      - right. destruct (ws l cond i) eqn:W1; [|discriminate]. cbn [negb andb] in K2.
        assert (N : sem (erase r) cond (runs f) (i + size l) = None) by (eapply (ws_off r); eauto). split; auto.
        pose proof (assign_idx l cond i) as SL. destruct (assign l cond i) as [x i1]. cbn [fst snd] in SL. destruct SL as [-> SL]. pose proof (sub_pred r p (i + size l) _ _ _ _ cond (runs f) f0 G2 N I2) as V. pose proof (sub_idx r p (i + size l)) as SR. destruct (sub r p (i + size l)) as [y i2]. cbn [fst snd] in *. destruct SR as [_ SR].
        rewrite <- V. eapply (off_pred r cond (runs f)); eauto. eapply keeps_ext; [exact K2|]. intros j J. rewrite perform_app. apply perform_ext. symmetry. apply perform_out. intros k z Q. apply SL in Q. lia. }
    (* a child of which nothing is left is neutral *)
    assert (NL : sem (erase l) cond (runs f) i = None -> pred l f i = p).
    { intros N. destruct L as [[_ M]|[_ M]]; auto. unfold means in M. rewrite N in M. destruct l as [|[] ?]; auto; destruct M as [C M]; rewrite M; unfold p in *; destruct o; auto; rewrite ?orb_true_r in C; discriminate. }
    assert (NR : sem (erase r) cond (runs f) (i + size l) = None -> pred r f (i + size l) = p).
    { intros N. destruct R as [[_ M]|[_ M]]; auto. unfold means in M. rewrite N in M. destruct r as [|[] ?]; auto; destruct M as [C M]; rewrite M; unfold p in *; destruct o; auto; rewrite ?orb_true_r in C; discriminate. }
    assert (SL : forall b, sem (erase l) cond (runs f) i = Some b -> pred l f i = b). { intros b X. destruct L as [[_ M]|[M _]]; [|congruence]. unfold means in M. rewrite X in M. auto. }
    assert (SR : forall b, sem (erase r) cond (runs f) (i + size l) = Some b -> pred r f (i + size l) = b). { intros b X. destruct R as [[_ M]|[M _]]; [|congruence]. unfold means in M. rewrite X in M. auto. }
    assert (ND : sem (erase (Node o a l r)) cond (runs f) i = None -> match o with AND => oA = false | OR => aA = false end).
    { intros N. assert (X : full (Node o a l r) -> False) by (intros F; rewrite (full_ws _ _ _ _ F N) in W; discriminate).
      destruct o; [destruct oA eqn:C|destruct aA eqn:C]; auto; exfalso; apply X; eapply good_full; eauto using off_opt. }
    unfold means. destruct (sem (erase (Node o a l r)) cond (runs f) i) as [b|] eqn:E.
    + destruct o; cbn [erase sem pred] in *; rewrite <- size_len in E; unfold p in *; destruct (sem (erase l) cond (runs f) i) as [x|]; destruct (sem (erase r) cond (runs f) (i + size l)) as [y|]; try discriminate; injection E as <-.
      all: rewrite ?(SL _ eq_refl), ?(SR _ eq_refl), ?NL, ?NR by auto; rewrite ?andb_true_r, ?orb_false_r; auto.
    + specialize (ND eq_refl). destruct o; (split; [auto|]); cbn [erase sem pred] in *; rewrite <- size_len in E; unfold p in *; destruct (sem (erase l) cond (runs f) i) as [x|]; destruct (sem (erase r) cond (runs f) (i + size l)) as [y|]; try discriminate; rewrite NL, NR by auto; auto.
Qed.
(** enabled leaves are not assigned *)
Lemma sub_on : forall t b i aA oA pa pand cond ran j x, good t aA oA pa pand -> sem (erase t) cond ran i = None -> In (j, x) (fst (sub t b i)) -> exists k, j = i + k /\ nth_error (whens (erase t)) k = Some true /\ cond j = false.
Proof.
  induction t as [w a c d|o a l IHl r IHr]; intros b i aA oA pa pand cond ran j x G N H.
  - cbn [erase sem sub fst whens] in *. exists 0. assert (w = true /\ cond i = false) as [-> C] by (destruct w, (cond i); auto; discriminate). assert (j = i) by (destruct (b && negb d); [|destruct (negb b && d)]; cbn [In] in H; try tauto; destruct H as [H|[]]; injection H as <- <-; auto). subst. split; [lia|auto].
  - cbn [good] in G. destruct G as (G1 & G2 & _ & _). assert (N1 : sem (erase l) cond ran i = None /\ sem (erase r) cond ran (i + size l) = None). { rewrite size_len. destruct o; cbn [erase sem] in N; destruct (sem (erase l) cond ran i), (sem (erase r) cond ran (i + length (whens (erase l)))); try discriminate; auto. }
    destruct N1 as [N1 N2]. cbn [sub] in H. specialize (IHl b i _ _ _ _ cond ran j x G1 N1). specialize (IHr b (i + size l) _ _ _ _ cond ran j x G2 N2). pose proof (sub_idx l b i) as SL. destruct (sub l b i) as [y i1]. cbn [fst snd] in SL. destruct SL as [-> _]. destruct (sub r b (i + size l)) as [z i2]. cbn [fst] in *.
    assert (HH : In (j, x) y \/ In (j, x) z). { destruct (match o with AND => b | OR => negb b end); [apply in_app_or; auto|]. destruct (length y <? length z); auto. }
    assert (W : whens (erase (Node o a l r)) = whens (erase l) ++ whens (erase r)) by (destruct o; auto). rewrite W.
    destruct HH as [HH|HH]; [destruct (IHl HH) as (k & -> & A & B)|destruct (IHr HH) as (k & -> & A & B)].
    + exists k. split; auto. split; auto. rewrite nth_error_app1; auto. apply nth_error_Some. congruence.
    + exists (size l + k). split; [lia|]. split; auto. rewrite size_len, nth_error_app2 by lia. rewrite <- A. f_equal. lia.
Qed.
Lemma assign_on : forall t aA oA pa pand cond i j x, good t aA oA pa pand -> (pa = true -> amb t = true) -> In (j, x) (fst (assign t cond i)) -> exists k, j = i + k /\ nth_error (whens (erase t)) k = Some true /\ cond j = false.
Proof.
  induction t as [w a c d|o a l IHl r IHr]; intros aA oA pa pand cond i j x G PA H; [destruct H|].
  pose proof G as GG. cbn [good] in G. destruct G as (G1 & G2 & G3 & _). cbn [assign] in H. assert (P1 : a = true -> amb l = true) by (intros; apply G3; auto). assert (P2 : a = true -> amb r = true) by (intros; apply G3; auto).
  assert (W : whens (erase (Node o a l r)) = whens (erase l) ++ whens (erase r)) by (destruct o; auto).
  assert (ML : forall k, nth_error (whens (erase l)) k = Some true -> nth_error (whens (erase (Node o a l r))) k = Some true) by (intros k A; rewrite W, nth_error_app1; auto; apply nth_error_Some; congruence).
  assert (MR : forall k, nth_error (whens (erase r)) k = Some true -> nth_error (whens (erase (Node o a l r))) (size l + k) = Some true) by (intros k A; rewrite W, size_len, nth_error_app2 by lia; rewrite <- A; f_equal; lia).
  destruct (negb (ws l cond i) && negb (ws r cond (i + size l))) eqn:B.
  - apply (sub_on (Node o a l r) true i _ _ _ _ cond (fun _ => true) j x GG); auto. eapply ws_off; eauto. cbn [ws]. rewrite B. auto.
  - assert (KL : In (j, x) (fst (assign l cond i)) -> exists k, j = i + k /\ nth_error (whens (erase (Node o a l r))) k = Some true /\ cond j = false) by (intros X; destruct (IHl _ _ _ _ _ _ _ _ G1 P1 X) as (k & A1 & A2 & A3); exists k; auto).
    assert (KR : In (j, x) (fst (assign r cond (i + size l))) -> exists k, j = i + k /\ nth_error (whens (erase (Node o a l r))) k = Some true /\ cond j = false) by (intros X; destruct (IHr _ _ _ _ _ _ _ _ G2 P2 X) as (k & A1 & A2 & A3); exists (size l + k); split; [lia|auto]).
    destruct (ws l cond i) eqn:W1; cbn [negb] in *; [destruct (ws r cond (i + size l)) eqn:W2; cbn [negb] in *|].
    + pose proof (assign_idx l cond i) as SL. destruct (assign l cond i) as [y i1]. cbn [fst snd] in SL. destruct SL as [-> _]. destruct (assign r cond (i + size l)) as [z i2]. cbn [fst] in *. apply in_app_or in H. destruct H; auto.
    + pose proof (assign_idx l cond i) as SL. destruct (assign l cond i) as [y i1]. cbn [fst snd] in SL. destruct SL as [-> _].
      assert (SO : forall b, In (j, x) (fst (sub r b (i + size l))) -> exists k, j = i + k /\ nth_error (whens (erase (Node o a l r))) k = Some true /\ cond j = false).
      { intros b X. destruct (sub_on r b (i + size l) _ _ _ _ cond (fun _ => true) j x G2) as (k & A1 & A2 & A3); auto; [eapply ws_off; eauto|]. exists (size l + k). split; [lia|auto]. }
      specialize (SO (match o with AND => true | OR => false end)). destruct (sub r _ (i + size l)) as [z i2]. cbn [fst] in *. apply in_app_or in H. destruct H; auto.
    + assert (SO : forall b, In (j, x) (fst (sub l b i)) -> exists k, j = i + k /\ nth_error (whens (erase (Node o a l r))) k = Some true /\ cond j = false).
      { intros b X. destruct (sub_on l b i _ _ _ _ cond (fun _ => true) j x G1) as (k & A1 & A2 & A3); auto; [eapply ws_off; eauto|]. exists k. auto. }
      specialize (SO (match o with AND => true | OR => false end)). pose proof (sub_idx l (match o with AND => true | OR => false end) i) as SL. destruct (sub l _ i) as [y i1]. cbn [fst snd] in SL. destruct SL as [-> _]. destruct (assign r cond (i + size l)) as [z i2]. cbn [fst] in *. apply in_app_or in H. destruct H; auto.
Qed.
Lemma init_on : forall t aA oA pa pand cond i k w, good t aA oA pa pand -> nth_error (whens (erase t)) k = Some w -> (w = true -> cond (i + k) = true) -> init t cond i (i + k) = UNSAT.
Proof.
  induction t as [v a c d|o a l IHl r IHr]; intros aA oA pa pand cond i k w G H C.
  - cbn [good erase whens init] in *. destruct k as [|k]; [|destruct k; discriminate]. injection H as ->. rewrite Nat.add_0_r in *. rewrite Nat.eqb_refl. destruct G as (_ & -> & _). destruct w; [rewrite C by auto; cbn [negb]; rewrite andb_false_r; auto|rewrite andb_false_r; auto].
  - cbn [good] in G. destruct G as (G1 & G2 & _). assert (W : whens (erase (Node o a l r)) = whens (erase l) ++ whens (erase r)) by (destruct o; auto). rewrite W in H. cbn [init]. destruct (Nat.ltb_spec (i + k) (i + size l)) as [L|L].
    + rewrite nth_error_app1 in H by (rewrite <- size_len; lia). eapply IHl; eauto.
    + rewrite nth_error_app2 in H by (rewrite <- size_len; lia). rewrite <- size_len in H. replace (i + k) with (i + size l + (k - size l)) in * by lia. eapply IHr; eauto.
Qed.
Lemma paint_flag : forall s aA oA, wor s = true -> fst (snd (paint (build s) aA oA false false)) = has_and s.
Proof.
  assert (WA : forall s aA oA aB oB, wand s = true -> fst (snd (paint (build s) aA oA aB oB)) = aB || has_and s).
  { destruct s as [w|l r|l r]; intros; cbn [build paint has_and fst snd wand] in *; [rewrite orb_false_r; auto| |discriminate]. destruct (paint (build l) true oA false false) as [l1 [x1 y1]]. destruct (paint (build r) true oA x1 y1) as [r1 [x2 y2]]. cbn [fst snd]. rewrite orb_true_r. auto. }
  induction s as [w|l IHl r IHr|l IHl r IHr]; intros aA oA H; cbn [wor] in H; try (apply (WA _ aA oA false false) in H; exact H).
  apply andb_true_iff in H. destruct H as [H1 H2]. cbn [build paint has_and]. specialize (IHl aA true H1). destruct (paint (build l) aA true false false) as [l1 [x1 y1]]. cbn [fst snd] in IHl. specialize (WA r aA true x1 y1 H2). destruct (paint (build r) aA true x1 y1) as [r1 [x2 y2]]. cbn [fst snd] in *. congruence.
Qed.
Lemma paint_some : forall s aA oA aB oB, fst (snd (paint (build s) aA oA aB oB)) = true -> aB = true \/ has_and s = true.
Proof.
  induction s as [w|l IHl r IHr|l IHl r IHr]; intros aA oA aB oB H; cbn [build paint has_and fst snd] in *; auto.
  specialize (IHl aA true false false). destruct (paint (build l) aA true false false) as [l1 [x1 y1]]. specialize (IHr aA true x1 y1). destruct (paint (build r) aA true x1 y1) as [r1 [x2 y2]]. cbn [fst snd] in *. right. destruct (IHr H) as [X|X]; [destruct (IHl X) as [Y|Y]; [discriminate|rewrite Y; auto]|rewrite X; apply orb_true_r].
Qed.
