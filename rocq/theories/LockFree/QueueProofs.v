From Coq Require Import List Bool Arith Lia.
From Verif.LockFree Require Import Spec QueueModel.
Import ListNotations.
Ltac sf := cbn [tail head next use pp cp arr out cgo ret] in *.
Lemma upd_same : forall A (f : nat -> A) i x, upd f i x i = x.
Proof. intros. unfold upd. now rewrite Nat.eqb_refl. Qed.
Lemma upd_other : forall A (f : nat -> A) i j x, j <> i -> upd f i x j = f j.
Proof. intros A f i j x N. unfold upd. destruct (Nat.eqb_spec j i); [contradiction|reflexivity]. Qed.

(** a directly before b in Q *)
Fixpoint consec (Q : list nat) (a b : nat) : Prop :=
  match Q with x :: r => match r with y :: _ => (x = a /\ y = b) \/ consec r a b | [] => False end | [] => False end.
Lemma consec_cons : forall e Q a b, consec (e :: Q) a b <-> (e = a /\ exists r, Q = b :: r) \/ consec Q a b.
Proof.
  intros e Q a b. destruct Q as [|y r]; [cbn; split; [intros []|intros [[_ [r H]]|[]]; discriminate]|]. change (consec (e :: y :: r) a b) with ((e = a /\ y = b) \/ consec (y :: r) a b). split.
  - intros [[A B]|A]; [left; subst; eauto|now right].
  - intros [[A [r' B]]|A]; [left; inversion B; auto|now right].
Qed.
Lemma consec_in : forall Q a b, consec Q a b -> In a Q /\ In b Q.
Proof.
  induction Q as [|x Q IH]; intros a b H; [destruct H|]. apply consec_cons in H. destruct H as [[A [r B]]|H]; [subst; cbn; auto|]. destruct (IH a b H). split; now right.
Qed.
Lemma consec_tl : forall Q x a b, NoDup (x :: Q) -> consec (x :: Q) a b -> b <> x /\ In b Q.
Proof.
  intros Q x a b ND H. inversion ND; subst. apply consec_cons in H. destruct H as [[A [r B]]|H]; [subst; split; [|now left]; intros ->; apply H2; now left|].
  destruct (consec_in _ _ _ H) as [_ B]. split; [intros ->; contradiction|exact B].
Qed.
Lemma consec_fun : forall Q a b c, NoDup Q -> consec Q a b -> consec Q a c -> b = c.
Proof.
  induction Q as [|x Q IH]; intros a b c ND A B; [destruct A|]. inversion ND; subst. apply consec_cons in A, B.
  destruct A as [[A [r A']]|A], B as [[B [r' B']]|B]; subst; try (inversion B'; congruence); try (exfalso; apply H1; apply consec_in in A || apply consec_in in B; tauto). eauto.
Qed.
Lemma last_cons : forall (Q : list nat) a b, last (b :: Q) a = last Q b.
Proof. induction Q as [|c Q IH]; intros a b; [reflexivity|]. rewrite (IH b c). change (last (b :: c :: Q) a) with (last (c :: Q) a). apply IH. Qed.
Lemma last_snoc : forall (l : list nat) a x, last (l ++ [x]) a = x.
Proof. induction l as [|b l IH]; intros; [reflexivity|]. cbn [app]. rewrite last_cons. apply IH. Qed.
Lemma last_in : forall (Q : list nat) b, In (last Q b) (b :: Q).
Proof. induction Q as [|c Q IH]; intros b; [now left|]. rewrite last_cons. right. apply IH. Qed.
Lemma consec_snoc : forall Q h n a b, consec ((h :: Q) ++ [n]) a b <-> consec (h :: Q) a b \/ (a = last Q h /\ b = n).
Proof.
  induction Q as [|x Q IH]; intros h n a b.
  - cbn. intuition.
  - change ((h :: x :: Q) ++ [n]) with (h :: ((x :: Q) ++ [n])). rewrite consec_cons, IH, (consec_cons h), last_cons. cbn [app]. split.
    + intros [[A [r B]]|[A|A]]; auto. left. left. inversion B; subst. eauto.
    + intros [[[A [r B]]|A]|A]; auto. left. inversion B; subst. cbn. eauto.
Qed.
Lemma consec_last : forall Q h b, NoDup (h :: Q) -> ~ consec (h :: Q) (last Q h) b.
Proof.
  induction Q as [|x Q IH]; intros h b ND H; [exact H|]. inversion ND; subst. rewrite last_cons in H. apply consec_cons in H. destruct H as [[A _]|H]; [|eapply IH; eauto].
  apply H2. rewrite A. apply last_in.
Qed.
Lemma nodup_snoc : forall (l : list nat) x, NoDup l -> ~ In x l -> NoDup (l ++ [x]).
Proof.
  induction l as [|y l IH]; intros x H N; cbn; [constructor; [intros []|constructor]|].
  inversion H; subst. constructor; [|apply IH; [assumption|]].
  - rewrite in_app_iff. cbn. intros [X|[X|[]]]; [contradiction|]. apply N. now left.
  - intros X. apply N. now right.
Qed.

Definition pnode (k : ppc) : option nat := match k with PIdle => None | PXchg n | PLink _ n | PHead n => Some n end.
(** what the consumer's place says about head, the queue Q and the link of the element being removed *)
Definition cok (s : st) (Q : list nat) : Prop :=
  match cp s with
  | CIdle => match Q with [] => head s = None | a :: _ => head s = Some a \/ head s = None end
  | CChk e | CNull e => (exists r, Q = e :: r) /\ head s = Some e
  | CHead e => (exists x r, Q = e :: x :: r /\ next s e = Some x) /\ head s = Some e
  | CClr e => exists x r, Q = e :: x :: r /\ next s e = Some x /\ head s = Some x
  | CCas e => (exists r, Q = e :: r) /\ head s = None
  | CSpin e => (exists x r, Q = e :: x :: r) /\ head s = None
  | CClr2 e x => (exists r, Q = e :: x :: r /\ next s e = Some x) /\ head s = None
  | CSet e x => (exists r, Q = e :: x :: r /\ next s e = None) /\ head s = None
  end.
Definition InvQ (s : st) (Q : list nat) : Prop :=
  arr s = out s ++ Q /\ NoDup Q /\ tail s = match Q with [] => None | a :: r => Some (last r a) end /\
  (forall a b, next s a = Some b -> consec Q a b) /\
  (forall a b, consec Q a b -> next s a = Some b \/ (next s a = None /\ exists p, pp s p = PLink a b) \/ cp s = CSet a b) /\
  (forall p a b, pp s p = PLink a b -> consec Q a b /\ next s a = None /\ cp s <> CSet a b) /\
  cok s Q /\
  (forall p n, pp s p = PHead n -> (exists r, Q = n :: r) /\ head s = None /\ cp s = CIdle) /\
  (forall a r, Q = a :: r -> cp s = CIdle -> head s = None -> exists p, pp s p = PHead a) /\
  (forall p q n, pnode (pp s p) = Some n -> pnode (pp s q) = Some n -> p = q) /\
  (forall n, use s n = true <-> In n Q \/ exists p, pp s p = PXchg n) /\
  (forall p n, pp s p = PXchg n -> ~ In n Q).

Lemma upd_case : forall A (f : nat -> A) i x j y, upd f i x j = y -> (j = i /\ x = y) \/ (j <> i /\ f j = y).
Proof. intros A f i x j y. unfold upd. destruct (Nat.eqb_spec j i); auto. Qed.
Ltac parts I := destruct I as (A & ND & T & NX & LK & PL & C & PH & HN & J & U & PX).

(** Steps of the consumer that keep the queue, the producers and the links. *)
Lemma cframe : forall s Q h k, InvQ s Q -> (forall a b, cp s <> CSet a b) -> (forall a b, k <> CSet a b) -> cok (cgo s h (next s) k) Q ->
  (k = CIdle -> False) -> (forall p n, pp s p <> PHead n) -> InvQ (cgo s h (next s) k) Q.
Proof.
  intros s Q h k I N1 N2 CK KI NP. parts I. unfold cgo. unfold InvQ; sf. split; [exact A|]. split; [exact ND|]. split; [exact T|]. split; [exact NX|]. split; [|split; [|split; [exact CK|split; [|split; [|split; [exact J|split; [exact U|exact PX]]]]]]].
  - intros a b H. destruct (LK a b H) as [X|[X|X]]; auto. exfalso. eapply N1; eauto.
  - intros p a b H. destruct (PL p a b H) as (X & Y & _). repeat split; auto.
  - intros p n H. exfalso. eapply NP; eauto.
  - intros a r _ E. exfalso. auto.
Qed.
Lemma busy_nohead : forall s Q, InvQ s Q -> cp s <> CIdle -> forall p n, pp s p <> PHead n.
Proof. intros s Q I N p n H. parts I. destruct (PH p n H) as (_ & _ & X). contradiction. Qed.
Lemma head_nohead : forall s Q, InvQ s Q -> head s <> None -> forall p n, pp s p <> PHead n.
Proof. intros s Q I N p n H. parts I. destruct (PH p n H) as (_ & X & _). contradiction. Qed.

(** pop returns e, the first element: queue Q' remains. *)
Lemma ret_inv : forall s e Q' t h nx, InvQ s (e :: Q') -> (cp s <> CIdle) ->
  t = match Q' with [] => None | a :: r => Some (last r a) end -> h = match Q' with [] => None | a :: _ => Some a end ->
  nx e = None -> (forall a, a <> e -> nx a = next s a) -> (forall b p, pp s p <> PLink e b) -> InvQ (ret s t h nx e) Q'.
Proof.
  intros s e Q' t h nx I NI ET EH NE NO NL. assert (BN := busy_nohead _ _ I NI). parts I. inversion ND as [|? ? NIN ND']; subst. unfold ret, InvQ; sf.
  assert (CI : forall a b, consec Q' a b -> a <> e) by (intros a b H ->; apply NIN; apply consec_in in H; tauto).
  split; [rewrite A; now rewrite <- app_assoc|]. split; [exact ND'|]. split; [reflexivity|]. split; [|split; [|split; [|split; [|split; [|split; [|split; [|split]]]]]]].
  - intros a b H. destruct (Nat.eq_dec a e) as [->|N]; [congruence|]. rewrite NO in H by exact N. apply NX in H. apply consec_cons in H. destruct H as [[X _]|H]; [congruence|exact H].
  - intros a b H. assert (N := CI a b H). rewrite NO by exact N. destruct (LK a b) as [X|[X|X]]; auto; [apply consec_cons; auto|].
    exfalso. unfold cok in C. rewrite X in C. destruct C as [(r & E & _) _]. inversion E; subst. congruence.
  - intros p a b H. destruct (PL p a b H) as (X & Y & Z). apply consec_cons in X. destruct X as [[X _]|X]; [subst a; exfalso; eapply NL; eauto|]. split; [exact X|]. split; [rewrite NO; eauto|discriminate].
  - unfold cok; sf. destruct Q'; auto.
  - intros p n H. exfalso. eapply BN; eauto.
  - intros a r -> _ H. discriminate.
  - exact J.
  - intros n. destruct (Nat.eq_dec n e) as [->|N].
    + rewrite upd_same. split; [discriminate|]. intros [X|[p X]]; [contradiction|]. exfalso. eapply PX; [exact X|now left].
    + rewrite upd_other, U by exact N. cbn. intuition congruence.
  - intros p n H X. eapply PX; [exact H|now right].
Qed.
Lemma step_inv : forall s Q a s', InvQ s Q -> step s a = Some s' -> exists Q', InvQ s' Q'.
Proof.
  intros s Q a s' I H. assert (I' := I). parts I'. unfold step in H. destruct a as [p n|p|].
  - (* call *) destruct (pp s p) eqn:K; try discriminate. destruct (use s n) eqn:UN; inversion H; subst; clear H. exists Q.
    assert (NQ : ~ In n Q) by (intros X; assert (use s n = true) by (apply U; now left); congruence).
    assert (NP : forall q, pnode (pp s q) <> Some n).
    { intros q X. assert (use s n = true); [|congruence]. apply U. destruct (pp s q) as [|m|x m|m] eqn:E; cbn in X; inversion X; subst; eauto.
      - left. destruct (PL q x n E) as (Y & _). apply consec_in in Y. tauto.
      - left. destruct (PH q n E) as ((r & Y) & _). rewrite Y. now left. }
    unfold InvQ; sf. split; [exact A|]. split; [exact ND|]. split; [exact T|]. split; [exact NX|]. split; [|split; [|split; [|split; [|split; [|split; [|split]]]]]].
    + intros a b X. destruct (LK a b X) as [Y|[[Y [q Z]]|Y]]; auto. right. left. split; [exact Y|]. exists q. rewrite upd_other; [exact Z|]. intros ->. congruence.
    + intros q a b X. apply upd_case in X. destruct X as [[_ X]|[_ X]]; [discriminate|]. apply (PL _ _ _ X).
    + exact C.
    + intros q m X. apply upd_case in X. destruct X as [[_ X]|[_ X]]; [discriminate|]. apply (PH _ _ X).
    + intros a r E1 E2 E3. destruct (HN a r E1 E2 E3) as [q X]. exists q. rewrite upd_other; [exact X|]. intros ->. congruence.
    + intros q1 q2 m. unfold upd. destruct (Nat.eqb_spec q1 p), (Nat.eqb_spec q2 p); cbn; intros X Y; subst; auto; [exfalso; inversion X; subst; eapply NP; eauto|exfalso; inversion Y; subst; eapply NP; eauto|eapply J; eauto].
    + intros m. destruct (Nat.eq_dec m n) as [->|N].
      * rewrite upd_same. split; [|reflexivity]. intros _. right. exists p. now rewrite upd_same.
      * rewrite upd_other, U by exact N. split; intros [X|[q X]]; auto; right; exists q; [rewrite upd_other; [exact X|intros ->; congruence]|]. apply upd_case in X. destruct X as [[_ X]|[_ X]]; [congruence|exact X].
    + intros q m X. apply upd_case in X. destruct X as [[_ X]|[_ X]]; [inversion X; subst; exact NQ|eauto].
  - (* producer *) destruct (pp s p) as [|n|x n|n] eqn:K; try discriminate; inversion H; subst; clear H.
    + (* exchange *) assert (NQ : ~ In n Q) by eauto. exists (Q ++ [n]).
      assert (OT : forall q, q <> p -> pnode (pp s q) <> Some n) by (intros q N X; apply N; eapply J; [exact X|now rewrite K]).
      assert (N0 : next s n = None) by (destruct (next s n) eqn:E; [apply NX in E; apply consec_in in E; tauto|reflexivity]).
      unfold InvQ; sf. split; [rewrite A; now rewrite app_assoc|]. split; [now apply nodup_snoc|]. split; [destruct Q as [|h Q]; [reflexivity|cbn [app]; now rewrite last_snoc]|].
      destruct Q as [|h Q].
      * rewrite T. cbn [app]. split; [intros a b X; apply NX in X; destruct X|]. split; [intros a b []|]. split; [|split; [|split; [|split; [|split; [|split]]]]].
        -- intros q a b X. apply upd_case in X. destruct X as [[_ X]|[_ X]]; [discriminate|]. destruct (PL _ _ _ X) as [[] _].
        -- unfold cok in *; sf. destruct (cp s); auto; exfalso; repeat match goal with H : _ /\ _ |- _ => destruct H | H : exists _, _ |- _ => destruct H end; discriminate.
        -- intros q m X. apply upd_case in X. destruct X as [[_ X]|[_ X]]; [|destruct (PH _ _ X) as ((r & E) & _); discriminate]. inversion X; subst. split; [eauto|].
           unfold cok in C. destruct (cp s); auto; exfalso; repeat match goal with H : _ /\ _ |- _ => destruct H | H : exists _, _ |- _ => destruct H end; discriminate.
        -- intros a r E _ _. inversion E; subst. exists p. apply upd_same.
        -- intros q1 q2 m. unfold upd. destruct (Nat.eqb_spec q1 p), (Nat.eqb_spec q2 p); cbn; intros X Y; subst; auto; [exfalso; inversion X; subst; eapply OT; eauto|exfalso; inversion Y; subst; eapply OT; eauto|eapply J; eauto].
        -- intros m. rewrite U. split.
           ++ intros [[]|[q X]]. destruct (Nat.eq_dec q p) as [->|N]; [left; left; congruence|right; exists q; now rewrite upd_other].
           ++ intros [[X|[]]|[q X]]; [subst; eauto|]. apply upd_case in X. destruct X as [[_ X]|[_ X]]; [discriminate|eauto].
        -- intros q m X Y. apply upd_case in X. destruct X as [[_ X]|[N X]]; [discriminate|]. destruct Y as [->|[]]. eapply OT; [exact N|now rewrite X].
      * rewrite T. split; [|split; [|split; [|split; [|split; [|split; [|split; [|split]]]]]]].
        -- intros a b X. apply consec_snoc. left. auto.
        -- intros a b X. apply consec_snoc in X. destruct X as [X|[-> ->]].
           ++ destruct (LK a b X) as [Y|[[Y [q Z]]|Y]]; auto. right. left. split; [exact Y|]. exists q. rewrite upd_other; [exact Z|]. intros ->. congruence.
           ++ right. left. split; [|exists p; apply upd_same]. destruct (next s (last Q h)) eqn:E; [|reflexivity]. apply NX in E. exfalso. eapply consec_last; eauto.
        -- intros q a b X. apply upd_case in X. destruct X as [[_ X]|[N X]].
           ++ inversion X; subst. split; [apply consec_snoc; auto|]. split; [destruct (next s (last Q h)) eqn:E; [|reflexivity]; apply NX in E; exfalso; eapply consec_last; eauto|].
              intros E. unfold cok in C. rewrite E in C. destruct C as [(r & E1 & _) _]. apply NQ. rewrite E1. right. now left.
           ++ destruct (PL _ _ _ X) as (Y & Z & W). split; [apply consec_snoc; auto|auto].
        -- unfold cok in *; sf. cbn [app] in *. destruct (cp s); repeat match goal with H : _ /\ _ |- _ => destruct H | H : exists _, _ |- _ => destruct H end; auto; try (match goal with E : h :: Q = _ |- _ => inversion E; subst end); cbn [app]; eauto 10.
        -- intros q m X. apply upd_case in X. destruct X as [[_ X]|[_ X]]; [discriminate|]. destruct (PH _ _ X) as ((r & E) & Y). split; [|exact Y]. rewrite E. cbn. eauto.
        -- intros a r E E2 E3. inversion E; subst a. destruct (HN h Q eq_refl E2 E3) as [q X]. exists q. rewrite upd_other; [exact X|]. intros ->. congruence.
        -- intros q1 q2 m. unfold upd. destruct (Nat.eqb_spec q1 p), (Nat.eqb_spec q2 p); cbn; intros X Y; subst; auto; [exfalso; inversion X; subst; eapply OT; eauto|exfalso; inversion Y; subst; eapply OT; eauto|eapply J; eauto].
        -- intros m. rewrite U, in_app_iff. split.
           ++ intros [X|[q X]]; auto. destruct (Nat.eq_dec q p) as [->|N]; [left; right; left; congruence|right; exists q; now rewrite upd_other].
           ++ intros [[X|[X|[]]]|[q X]]; [auto|subst; eauto|]. apply upd_case in X. destruct X as [[_ X]|[_ X]]; [discriminate|eauto].
        -- intros q m X Y. apply upd_case in X. destruct X as [[_ X]|[N X]]; [discriminate|]. rewrite in_app_iff in Y. destruct Y as [Y|[->|[]]]; [eapply PX; eauto|]. eapply OT; [exact N|now rewrite X].
    + (* link *) exists Q. destruct (PL p x n K) as (CX & NXX & NC).
      unfold InvQ; sf. split; [exact A|]. split; [exact ND|]. split; [exact T|]. split; [|split; [|split; [|split; [|split; [|split; [|split; [|split]]]]]]].
      * intros a b X. apply upd_case in X. destruct X as [[-> X]|[_ X]]; [inversion X; subst; exact CX|auto].
      * intros a b X. destruct (Nat.eq_dec a x) as [->|N].
        -- rewrite upd_same. left. f_equal. eapply consec_fun; eauto.
        -- rewrite upd_other by exact N. destruct (LK a b X) as [Y|[[Y [q Z]]|Y]]; auto. right. left. split; [exact Y|]. exists q. rewrite upd_other; [exact Z|]. intros ->. congruence.
      * intros q a b X. apply upd_case in X. destruct X as [[_ X]|[N X]]; [discriminate|]. destruct (PL _ _ _ X) as (Y & Z & W). split; [exact Y|]. split; [|exact W]. rewrite upd_other; [exact Z|]. intros ->.
        apply N. eapply (J q p n); [|now rewrite K]. rewrite X. cbn. f_equal. eapply consec_fun; eauto.
      * unfold cok in *; sf. destruct (cp s) eqn:EC; auto; repeat match goal with H : _ /\ _ |- _ => destruct H | H : exists _, _ |- _ => destruct H end; subst.
        -- split; [|assumption]. do 2 eexists. split; [reflexivity|]. rewrite upd_other; [eassumption|]. intros ->. congruence.
        -- do 2 eexists. split; [reflexivity|]. split; [|assumption]. rewrite upd_other; [eassumption|]. intros ->. congruence.
        -- split; [|assumption]. eexists. split; [reflexivity|]. rewrite upd_other; [eassumption|]. intros ->. congruence.
        -- split; [|assumption]. eexists. split; [reflexivity|]. rewrite upd_other; [eassumption|]. intros ->. apply NC. f_equal.
           eapply consec_fun; [exact ND| |exact CX]. cbn. now left.
      * intros q m X. apply upd_case in X. destruct X as [[_ X]|[_ X]]; [discriminate|]. apply (PH _ _ X).
      * intros a r E1 E2 E3. destruct (HN a r E1 E2 E3) as [q X]. exists q. rewrite upd_other; [exact X|]. intros ->. congruence.
      * intros q1 q2 m. unfold upd. destruct (Nat.eqb_spec q1 p), (Nat.eqb_spec q2 p); cbn; intros X Y; subst; try discriminate. eapply J; eauto.
      * intros m. rewrite U. split; intros [X|[q X]]; auto; right; exists q; [rewrite upd_other; [exact X|intros ->; congruence]|]. apply upd_case in X. destruct X as [[_ X]|[_ X]]; [discriminate|exact X].
      * intros q m X. apply upd_case in X. destruct X as [[_ X]|[_ X]]; [discriminate|eauto].
    + (* write head *) exists Q. destruct (PH p n K) as ((r0 & EQ) & H0 & CI).
      unfold InvQ; sf. split; [exact A|]. split; [exact ND|]. split; [exact T|]. split; [exact NX|]. split; [|split; [|split; [|split; [|split; [|split; [|split]]]]]].
      * intros a b X. destruct (LK a b X) as [Y|[[Y [q Z]]|Y]]; auto. right. left. split; [exact Y|]. exists q. rewrite upd_other; [exact Z|]. intros ->. congruence.
      * intros q a b X. apply upd_case in X. destruct X as [[_ X]|[_ X]]; [discriminate|]. apply (PL _ _ _ X).
      * unfold cok; sf. rewrite CI, EQ. now left.
      * intros q m X. apply upd_case in X. destruct X as [[_ X]|[N X]]; [discriminate|]. destruct (PH _ _ X) as ((r1 & E1) & _). exfalso. apply N. rewrite E1 in EQ. inversion EQ; subst. eapply J; [rewrite X|rewrite K]; reflexivity.
      * intros a r _ _ X. discriminate.
      * intros q1 q2 m. unfold upd. destruct (Nat.eqb_spec q1 p), (Nat.eqb_spec q2 p); cbn; intros X Y; subst; try discriminate. eapply J; eauto.
      * intros m. rewrite U. split; intros [X|[q X]]; auto; right; exists q; [rewrite upd_other; [exact X|intros ->; congruence]|]. apply upd_case in X. destruct X as [[_ X]|[_ X]]; [discriminate|exact X].
      * intros q m X. apply upd_case in X. destruct X as [[_ X]|[_ X]]; [discriminate|eauto].
  - (* consumer *) unfold cok in C. destruct (cp s) as [|e|e|e|e|e|e|e r|e r] eqn:K.
    + destruct (head s) as [e|] eqn:HD; inversion H; subst; clear H; [|eauto]. exists Q. rewrite <- HD. apply cframe; auto; try congruence; try discriminate; [|eapply head_nohead; eauto; congruence].
      unfold cok; sf. destruct Q as [|b r]; [discriminate|]. destruct C as [C|C]; [|discriminate]. inversion C; subst. eauto.
    + inversion H; subst; clear H. exists Q. destruct C as [[r C] HD]. apply cframe; auto; try congruence; try (destruct (next s e); discriminate); [|eapply busy_nohead; eauto; congruence].
      unfold cok; sf. destruct (next s e) as [x|] eqn:NE; [|eauto]. split; [|exact HD]. apply NX in NE as NE'. rewrite C in NE'. apply consec_cons in NE'.
      destruct NE' as [[_ [r' E]]|E]; [subst r; eauto|]. exfalso. rewrite C in ND. inversion ND; subst. apply consec_in in E. tauto.
    + inversion H; subst; clear H. exists Q. destruct C as [(x & r & C & NE) HD]. apply cframe; auto; try congruence; try discriminate; [|eapply busy_nohead; eauto; congruence].
      unfold cok; sf. eauto 6.
    + inversion H; subst; clear H. destruct C as (x & r & -> & NE & HD). exists (x :: r). apply ret_inv; auto; try congruence.
      * now rewrite T, last_cons.
      * apply upd_same.
      * intros a N. now apply upd_other.
      * intros b p X. destruct (PL _ _ _ X) as (_ & Y & _). congruence.
    + inversion H; subst; clear H. exists Q. destruct C as [C HD]. apply cframe; auto; try congruence; try discriminate; [|eapply busy_nohead; eauto; congruence]. unfold cok; sf. auto.
    + destruct C as [[r ->] HD]. rewrite T in H. destruct (Nat.eqb_spec (last r e) e) as [E|E]; inversion H; subst; clear H.
      * assert (r = []) by (destruct r as [|b r]; [reflexivity|]; exfalso; inversion ND; subst; apply H1; rewrite last_cons in E; rewrite <- E; apply last_in). subst r. exists []. apply ret_inv; auto; try congruence.
        -- destruct (next s e) as [b|] eqn:NE; [|reflexivity]. apply NX in NE. destruct NE.
        -- intros b p X. destruct (PL _ _ _ X) as ([] & _).
      * exists (e :: r). apply cframe; auto; try congruence; try discriminate; [|eapply busy_nohead; eauto; congruence]. unfold cok; sf. split; [|exact HD]. destruct r as [|b r]; [cbn in E; congruence|]. eauto.
    + destruct C as [(x & r & ->) HD]. destruct (next s e) as [z|] eqn:NE; inversion H; subst; clear H; [|eauto]. exists (e :: x :: r).
      assert (z = x) by (apply NX in NE; eapply consec_fun; [exact ND|exact NE|cbn; now left]). subst z.
      apply cframe; auto; try congruence; try discriminate; [|eapply busy_nohead; eauto; congruence]. unfold cok; sf. eauto.
    + inversion H; subst; clear H. destruct C as [(r' & -> & NE) HD]. exists (e :: r :: r'). assert (BN := busy_nohead _ _ I). rewrite K in BN. specialize (BN ltac:(discriminate)).
      unfold cgo, InvQ; sf. split; [exact A|]. split; [exact ND|]. split; [exact T|]. split; [|split; [|split; [|split; [|split; [|split; [|split; [|split]]]]]]]; auto.
      * intros a b X. apply upd_case in X. destruct X as [[_ X]|[_ X]]; [discriminate|auto].
      * intros a b X. destruct (Nat.eq_dec a e) as [->|N].
        -- right. right. f_equal. eapply consec_fun; [exact ND|cbn; now left|exact X].
        -- rewrite upd_other by exact N. destruct (LK a b X) as [Y|[Y|Y]]; auto. discriminate.
      * intros p a b X. destruct (PL _ _ _ X) as (Y & Z & W). assert (a <> e) by (intros ->; congruence). split; [exact Y|]. split; [now rewrite upd_other|]. intros E. inversion E; subst. congruence.
      * unfold cok; sf. rewrite upd_same. eauto.
      * intros p n X. exfalso. eapply BN; eauto.
      * discriminate.
    + inversion H; subst; clear H. destruct C as [(r' & -> & NE) HD]. exists (r :: r'). apply ret_inv; auto; try congruence.
      * now rewrite T, last_cons.
      * intros b p X. destruct (PL _ _ _ X) as (Y & _ & W). apply W. f_equal. eapply consec_fun; [exact ND|cbn; now left|exact Y].
Qed.
Lemma reach_inv : forall s, reach s -> exists Q, InvQ s Q.
Proof.
  intros s H. induction H as [|s a s' H [Q I] S]; [|eapply step_inv; eauto]. exists []. unfold InvQ, init; sf. split; [reflexivity|]. split; [constructor|]. split; [reflexivity|].
  split; [discriminate|]. split; [intros a b []|]. split; [discriminate|]. split; [reflexivity|]. split; [discriminate|]. split; [discriminate|]. split; [discriminate|]. split; [|discriminate].
  intros n. split; [discriminate|]. intros [[]|[p X]]. discriminate.
Qed.
