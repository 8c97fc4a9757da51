From Coq Require Import List Bool Arith Lia.
From Verif.KFuture Require Import Model.
From Verif.KFuture Require Proofs.
From Verif.WaitAny Require Import Spec Model.
Import ListNotations.

Definition okx (x : pv) : Prop := x = Armed \/ x = Ctx 0.
Definition pre (v : spc) : Prop := v = SIdle \/ exists x, v = SCas x /\ okx x.
(** states of one future and its server: not registered / registered *)
Definition U (p : pv) (v : spc) : Prop := (p = Armed /\ pre v) \/ (p = Fulfilled /\ v = SDone).
Definition R (p : pv) (v : spc) : Prop :=
  (p = Ctx 0 /\ pre v) \/ (p = Progress /\ v = SPost 0) \/ (p = Progress /\ v = SStore) \/ (p = Fulfilled /\ v = SDone).
(** the context was posted: some registered future is at or past its post *)
Definition past (v : spc) : Prop := v = SStore \/ v = SDone.

Definition all (f : nat -> Prop) : Prop := forall j, f j.
Definition Inv (n : nat) (s : st) : Prop :=
  let u j := U (fp s j) (fv s j) in
  let r j := R (fp s j) (fv s j) in
  let posted := os s = true -> exists j, j < n /\ past (fv s j) in
  match c s with
  | ASet i => i < n /\ all (fun j => if j <? i then r j else u j) /\ dead s = 0
  | ASetC i e => i < n /\ all (fun j => if j <? i then r j else u j) /\ e = Armed /\ dead s = 0
  | AWait => all (fun j => if j <? n then r j else u j) /\ dead s = 0
  | ARet i x => i < n /\ all (fun j => if (i <=? j) && (j <? n) then r j else u j) /\ dead s = 0 /\
      match x with Some k => k < n /\ fp s k = Fulfilled | None => True end /\
      (x = None -> exists j, i <= j < n /\ past (fv s j))
  | ASpin i x => i < n /\ all (fun j => if (i <=? j) && (j <? n) then r j else u j) /\ dead s = 0 /\
      match x with Some k => k < n /\ fp s k = Fulfilled | None => True end /\ fp s i <> Ctx 0
  | ADone false x => all u /\ dead s = 0 /\ match x with Some k => k < n /\ fp s k = Fulfilled | None => False end
  | ADone true x => all (fun j => u j \/ (match x with Some k => j < k | None => False end /\ r j)) /\
      match x with Some k => k < n /\ fp s k = Fulfilled | None => False end
  end.
(** separately: the context has been posted only if a future is past its post *)
Definition Inv2 (n : nat) (s : st) : Prop :=
  match c s with
  | ASet i | ASetC i _ => os s = true -> exists j, j < i /\ past (fv s j)
  | AWait => os s = true -> exists j, j < n /\ past (fv s j)
  | _ => True
  end.

Lemma setp_same : forall f i x, setp f i x i = x.
Proof. intros. unfold setp. now rewrite Nat.eqb_refl. Qed.
Lemma setv_same : forall f i x, setv f i x i = x.
Proof. intros. unfold setv. now rewrite Nat.eqb_refl. Qed.
Lemma setp_other : forall f i j x, j <> i -> setp f i x j = f j.
Proof. intros f i j x N. unfold setp. destruct (Nat.eqb_spec j i); [contradiction|reflexivity]. Qed.
Lemma setv_other : forall f i j x, j <> i -> setv f i x j = f j.
Proof. intros f i j x N. unfold setv. destruct (Nat.eqb_spec j i); [contradiction|reflexivity]. Qed.

(** one step of one server on its own future, as a relation *)
Definition srv (p : pv) (v : spc) (p' : pv) (v' : spc) : Prop :=
  match v with
  | SIdle => p' = p /\ v' = SCas p
  | SCas e => (p = e /\ ((e = Armed /\ p' = Fulfilled /\ v' = SDone) \/ (exists k, e = Ctx k /\ p' = Progress /\ v' = SPost k)))
      \/ (p <> e /\ p' = p /\ v' = SIdle)
  | SPost _ => p' = p /\ v' = SStore
  | SStore => p' = Fulfilled /\ v' = SDone
  | SDone => False
  end.
Lemma server_step : forall n s i s', step n s (Server i) = Some s' ->
  srv (fp s i) (fv s i) (fp s' i) (fv s' i) /\
  (forall j, j <> i -> fp s' j = fp s j /\ fv s' j = fv s j) /\ c s' = c s /\
  ((os s' = os s /\ dead s' = dead s /\ forall k, fv s i <> SPost k) \/
   (exists k, fv s i = SPost k /\ os s' = true /\ dead s' = match c s with ADone _ _ => S (dead s) | _ => dead s end)).
Proof.
  intros n s i s' E. cbn [step] in E. unfold srv. destruct (fv s i) eqn:V.
  - inversion E; subst; cbn [fp fv c os dead]. rewrite setv_same. split; [auto|]. split; [|split; [auto|left; repeat split; discriminate]].
    intros j N. now rewrite setv_other.
  - destruct (pv_eqb (fp s i) e) eqn:Q.
    + apply KFuture.Proofs.pv_eqb_eq in Q.
      destruct e; try discriminate; inversion E; subst; cbn [fp fv c os dead]; rewrite setv_same, setp_same; split.
      * left. split; [exact Q|auto].
      * split; [|split; [auto|left; repeat split; discriminate]]. intros j N. now rewrite setv_other, setp_other.
      * left. split; [exact Q|]. right. eauto.
      * split; [|split; [auto|left; repeat split; discriminate]]. intros j N. now rewrite setv_other, setp_other.
    + inversion E; subst; cbn [fp fv c os dead]. rewrite setv_same. split.
      * right. split; [|auto]. intros X. apply KFuture.Proofs.pv_eqb_eq in X. congruence.
      * split; [|split; [auto|left; repeat split; discriminate]]. intros j N. now rewrite setv_other.
  - inversion E; subst; cbn [fp fv c os dead]. rewrite setv_same. split; [auto|].
    split; [|split; [auto|right; exists k; auto]]. intros j N. now rewrite setv_other.
  - inversion E; subst; cbn [fp fv c os dead]. rewrite setv_same, setp_same. split; [auto|].
    split; [|split; [auto|left; repeat split; discriminate]]. intros j N. now rewrite setv_other, setp_other.
  - discriminate.
Qed.
Lemma srv_U : forall p v p' v', srv p v p' v' -> U p v -> U p' v'.
Proof.
  intros p v p' v' S [[P [V|(x & V & X)]]|[P V]]; subst; cbn [srv] in S.
  - destruct S as [-> ->]. left. split; [reflexivity|right]. exists Armed. split; [reflexivity|now left].
  - destruct S as [(E & [(_ & -> & ->)|(k & E' & _)])|(_ & -> & ->)].
    + right; auto.
    + congruence.
    + left. split; [reflexivity|now left].
  - destruct S.
Qed.
Lemma srv_R : forall p v p' v', srv p v p' v' -> R p v -> R p' v'.
Proof.
  unfold R. intros p v p' v' S [[P [V|(x & V & X)]]|[[P V]|[[P V]|[P V]]]]; subst; cbn [srv] in S.
  - destruct S as [-> ->]. left. split; [reflexivity|right]. exists (Ctx 0). split; [reflexivity|now right].
  - destruct S as [(E & [(E' & _)|(k & E' & -> & ->)])|(_ & -> & ->)].
    + congruence.
    + assert (k = 0) by congruence. subst k. auto.
    + left. split; [reflexivity|now left].
  - destruct S as [-> ->]. auto.
  - destruct S as [-> ->]. auto.
  - destruct S.
Qed.
Lemma srv_past : forall p v p' v', srv p v p' v' -> past v -> past v'.
Proof. intros p v p' v' S [V|V]; subst; cbn [srv] in S; [destruct S as [_ ->]; now right|destruct S]. Qed.
Lemma srv_fulfilled : forall p v p' v', srv p v p' v' -> (U p v \/ R p v) -> p = Fulfilled -> p' = Fulfilled.
Proof.
  intros p v p' v' S H P. subst p. assert (v = SDone) as ->.
  { destruct H as [[[P V]|[P V]]|[[P V]|[[P V]|[[P V]|[P V]]]]]; congruence. }
  destruct S.
Qed.
Lemma U_nopost : forall p k, U p (SPost k) -> False.
Proof. intros p k [[P [V|(x & V & X)]]|[P V]]; discriminate. Qed.

(** everything the servers do preserves the invariant *)
Lemma server_inv : forall n s i s', Inv n s -> Inv2 n s -> step n s (Server i) = Some s' -> Inv n s' /\ Inv2 n s'.
Proof.
  intros n s i s' I J E. apply server_step in E. destruct E as (S & O & C & D).
  assert (KU : forall j, U (fp s j) (fv s j) -> U (fp s' j) (fv s' j)).
  { intros j H. destruct (Nat.eq_dec j i) as [->|N]; [exact (srv_U _ _ _ _ S H)|]. destruct (O j N) as [-> ->]. exact H. }
  assert (KR : forall j, R (fp s j) (fv s j) -> R (fp s' j) (fv s' j)).
  { intros j H. destruct (Nat.eq_dec j i) as [->|N]; [exact (srv_R _ _ _ _ S H)|]. destruct (O j N) as [-> ->]. exact H. }
  assert (KP : forall j, past (fv s j) -> past (fv s' j)).
  { intros j H. destruct (Nat.eq_dec j i) as [->|N]; [exact (srv_past _ _ _ _ S H)|]. destruct (O j N) as [_ ->]. exact H. }
  assert (KF : forall j, (U (fp s j) (fv s j) \/ R (fp s j) (fv s j)) -> fp s j = Fulfilled -> fp s' j = Fulfilled).
  { intros j H. destruct (Nat.eq_dec j i) as [->|N]; [exact (srv_fulfilled _ _ _ _ S H)|]. destruct (O j N) as [-> _]. auto. }
  assert (KA : forall b, all (fun j => if b j : bool then R (fp s j) (fv s j) else U (fp s j) (fv s j)) ->
                         all (fun j => if b j then R (fp s' j) (fv s' j) else U (fp s' j) (fv s' j))).
  { intros b H j. specialize (H j). cbn beta in *. destruct (b j); auto. }
  assert (KE : forall b j, all (fun j => if b j : bool then R (fp s j) (fv s j) else U (fp s j) (fv s j)) ->
                         U (fp s j) (fv s j) \/ R (fp s j) (fv s j)).
  { intros b j H. specialize (H j). cbn beta in *. destruct (b j); auto. }
  (* where a post can happen *)
  assert (KQ : forall b, all (fun j => if b j : bool then R (fp s j) (fv s j) else U (fp s j) (fv s j)) ->
      (forall k, fv s i = SPost k -> b i = true)).
  { intros b H k V. specialize (H i). cbn beta in H. destruct (b i); [reflexivity|]. rewrite V in H. destruct (U_nopost _ _ H). }
  unfold Inv, Inv2 in *. rewrite C in *. destruct (c s) as [x|x e| |x r|x r|[] r].
  - destruct I as (B & A & D0). split.
    + split; [exact B|]. split; [exact (KA _ A)|]. destruct D as [(_ & D & _)|(k & _ & _ & D)]; congruence.
    + intros T. destruct D as [(D & _)|(k & V & D & _)].
      * rewrite D in T. destruct (J T) as (j & Q & P). eauto.
      * exists i. pose proof (KQ _ A k V) as Q. cbn beta in Q. apply Nat.ltb_lt in Q. split; [exact Q|].
        left. unfold srv in S. rewrite V in S. apply S.
  - destruct I as (B & A & X & D0). split.
    + split; [exact B|]. split; [exact (KA _ A)|]. split; [exact X|]. destruct D as [(_ & D & _)|(k & _ & _ & D)]; congruence.
    + intros T. destruct D as [(D & _)|(k & V & D & _)].
      * rewrite D in T. destruct (J T) as (j & Q & P). eauto.
      * exists i. pose proof (KQ _ A k V) as Q. cbn beta in Q. apply Nat.ltb_lt in Q. split; [exact Q|].
        left. unfold srv in S. rewrite V in S. apply S.
  - destruct I as (A & D0). split.
    + split; [exact (KA _ A)|]. destruct D as [(_ & D & _)|(k & _ & _ & D)]; congruence.
    + intros T. destruct D as [(D & _)|(k & V & D & _)].
      * rewrite D in T. destruct (J T) as (j & Q & P). eauto.
      * exists i. pose proof (KQ _ A k V) as Q. cbn beta in Q. apply Nat.ltb_lt in Q. split; [exact Q|].
        left. unfold srv in S. rewrite V in S. apply S.
  - destruct I as (B & A & D0 & X & Y). split; [|exact I]. split; [exact B|]. split; [exact (KA _ A)|].
    split; [destruct D as [(_ & D & _)|(k & _ & _ & D)]; congruence|]. split.
    + destruct r as [k|]; [|exact I]. destruct X as [X X']. split; [exact X|]. exact (KF _ (KE _ k A) X').
    + intros Z. destruct (Y Z) as (j & Q & P). eauto.
  - destruct I as (B & A & D0 & X & Y). split; [|exact I]. split; [exact B|]. split; [exact (KA _ A)|].
    split; [destruct D as [(_ & D & _)|(k & _ & _ & D)]; congruence|]. split.
    + destruct r as [k|]; [|exact I]. destruct X as [X X']. split; [exact X|]. exact (KF _ (KE _ k A) X').
    + pose proof (A x) as Ax. cbn beta in Ax. rewrite Nat.leb_refl in Ax. apply Nat.ltb_lt in B. rewrite B in Ax. cbn [andb] in Ax.
      destruct (Nat.eq_dec x i) as [->|N].
      * destruct Ax as [[P _]|[[P V]|[[P V]|[P V]]]]; [congruence| | |]; rewrite V in S; cbn [srv] in S; try (destruct S as [-> _]; congruence); destruct S.
      * destruct (O x N) as [-> _]. exact Y.
  - destruct I as (A & X). split; [|exact I]. split.
    + intros j. destruct (A j) as [H|[Q H]]; auto.
    + destruct r as [k|]; [|exact X]. destruct X as [X X']. split; [exact X|]. refine (KF _ _ X'). destruct (A k) as [H|[_ H]]; auto.
  - destruct I as (A & D0 & X). split; [|exact I]. split; [intros j; exact (KU j (A j))|]. split.
    + destruct D as [(_ & D & _)|(k & V & _)]; [congruence|]. pose proof (A i) as H. cbn beta in H. rewrite V in H. destruct (U_nopost _ _ H).
    + destruct r as [k|]; [|exact X]. destruct X as [X X']. split; [exact X|]. exact (KF _ (or_introl (A k)) X').
Qed.

Definition rok (n : nat) (p : nat -> pv) (r : option nat) : Prop :=
  match r with Some k => k < n /\ p k = Fulfilled | None => True end.
Lemma next_retract_inv : forall n i r p v o, i < n ->
  all (fun j => if (S i <=? j) && (j <? n) then R (p j) (v j) else U (p j) (v j)) -> rok n p r ->
  (r = None -> exists j, S i <= j < n /\ past (v j)) -> Inv n (S_ p v (next_retract n i r) o 0).
Proof.
  intros n i r p v o L A X Y. unfold next_retract. destruct (Nat.ltb_spec (S i) n) as [Q|Q]; unfold Inv; cbn [c fp fv os dead].
  - split; [exact Q|]. split; [exact A|]. split; [reflexivity|]. split; [exact X|exact Y].
  - split.
    + intros j. specialize (A j). cbn beta in A. destruct ((S i <=? j) && (j <? n)) eqn:T; [|exact A].
      apply andb_true_iff in T. destruct T as [T1 T2]. apply Nat.leb_le in T1. apply Nat.ltb_lt in T2. lia.
    + split; [reflexivity|]. destruct r as [k|]; [exact X|]. destruct (Y eq_refl) as (j & T & _). lia.
Qed.
Lemma pre_past : forall v, pre v -> past v -> False.
Proof. intros v [->|(x & -> & _)] [P|P]; discriminate. Qed.

Lemma caller_inv : forall n s s', Inv n s -> Inv2 n s -> step n s Caller = Some s' -> Inv n s' /\ Inv2 n s'.
Proof.
  intros n [p v a o d] s' I J E. cbn [step fp fv c os dead] in E. unfold Inv in I; cbn [c fp fv os dead] in I.
  unfold Inv2 in J; cbn [c fp fv os dead] in J.
  destruct a as [i|i e| |i r|i r|b r].
  - destruct I as (L & A & D). pose proof (A i) as Ai. cbn beta in Ai. rewrite Nat.ltb_irrefl in Ai.
    destruct Ai as [[P V]|[P V]]; rewrite P in E; inversion E; subst s'; clear E; unfold Inv, Inv2; cbn [c fp fv os dead].
    + split; [|exact J]. auto.
    + split; [|exact I]. split; [|auto]. intros j. specialize (A j). cbn beta in A. destruct (Nat.ltb_spec j i); auto.
  - destruct I as (L & A & -> & D). pose proof (A i) as Ai. cbn beta in Ai. rewrite Nat.ltb_irrefl in Ai.
    destruct (pv_eqb (p i) Armed) eqn:Q; inversion E; subst s'; clear E.
    + apply KFuture.Proofs.pv_eqb_eq in Q. destruct Ai as [[_ V]|[P _]]; [|congruence].
      assert (N : forall m, m = S i -> all (fun j => if j <? m then R (setp p i (Ctx 0) j) (v j) else U (setp p i (Ctx 0) j) (v j))).
      { intros m -> j. specialize (A j). cbn beta in A. destruct (Nat.eq_dec j i) as [->|N].
        - rewrite setp_same. assert (i <? S i = true) as -> by (apply Nat.ltb_lt; lia). left. auto.
        - rewrite setp_other by exact N. destruct (Nat.ltb_spec j i); destruct (Nat.ltb_spec j (S i)); auto; lia. }
      unfold next_setup. destruct (Nat.ltb_spec (S i) n) as [T|T]; unfold Inv, Inv2; cbn [c fp fv os dead].
      * split; [|intros O; destruct (J O) as (j & B & P); exists j; split; [lia|exact P]].
        split; [exact T|]. split; [exact (N _ eq_refl)|exact D].
      * split; [|intros O; destruct (J O) as (j & B & P); exists j; split; [lia|exact P]].
        split; [apply N; lia|exact D].
    + unfold Inv, Inv2; cbn [c fp fv os dead]. auto.
  - destruct I as (A & D). destruct o; [|discriminate]. inversion E; subst s'; clear E. unfold Inv, Inv2; cbn [c fp fv os dead].
    split; [|exact I]. destruct (J eq_refl) as (j & B & P). split; [lia|]. split; [exact A|]. split; [exact D|].
    split; [exact I|]. intros _. exists j. split; [lia|exact P].
  - destruct I as (L & A & D & X & Y). subst d. pose proof (A i) as Ai. cbn beta in Ai. rewrite Nat.leb_refl in Ai.
    assert (Lb := L). apply Nat.ltb_lt in Lb. rewrite Lb in Ai. cbn [andb] in Ai.
    assert (W : forall x, (x = Armed \/ x = Fulfilled) -> U x (v i) ->
      all (fun j => if (S i <=? j) && (j <? n) then R (setp p i x j) (v j) else U (setp p i x j) (v j))).
    { intros x Hx Ux j. specialize (A j). cbn beta in A. destruct (Nat.eq_dec j i) as [->|N].
      - rewrite setp_same. assert (S i <=? i = false) as -> by (apply Nat.leb_gt; lia). exact Ux.
      - rewrite setp_other by exact N. destruct (Nat.leb_spec i j), (Nat.leb_spec (S i) j); cbn [andb] in *; auto; lia. }
    destruct (pv_eqb (p i) (Ctx 0)) eqn:Q.
    + inversion E; subst s'; clear E. apply KFuture.Proofs.pv_eqb_eq in Q.
      assert (V : pre (v i)) by (destruct Ai as [[_ V]|[[P V]|[[P V]|[P V]]]]; [exact V|congruence|congruence|congruence]).
      split; [|unfold Inv2, next_retract; cbn [c]; destruct (S i <? n); exact I].
      apply next_retract_inv; [exact L|apply W; [now left|left; auto]| |].
      * destruct r as [k|]; [|exact I]. destruct X as [X X']. split; [exact X|]. rewrite setp_other; [exact X'|]. intros ->. congruence.
      * intros Z. destruct (Y Z) as (j & B & P). exists j. split; [|exact P].
        assert (j <> i) by (intros ->; exact (pre_past _ V P)). lia.
    + destruct Ai as [[P V]|[[P V]|[[P V]|[P V]]]]; rewrite P in *.
      * cbn in Q. discriminate.
      * inversion E; subst s'; clear E. unfold Inv, Inv2; cbn [c fp fv os dead]. split; [|exact I].
        split; [exact L|]. split; [exact A|]. split; [reflexivity|]. split; [exact X|]. rewrite P. discriminate.
      * inversion E; subst s'; clear E. unfold Inv, Inv2; cbn [c fp fv os dead]. split; [|exact I].
        split; [exact L|]. split; [exact A|]. split; [reflexivity|]. split; [exact X|]. rewrite P. discriminate.
      * inversion E; subst s'; clear E.
        split; [|unfold Inv2, next_retract; cbn [c]; destruct (S i <? n); exact I].
        apply next_retract_inv; [exact L| |cbn; auto|discriminate].
        assert (G := W Fulfilled (or_intror eq_refl) ltac:(right; auto)).
        intros j. specialize (G j). cbn beta in *. destruct (Nat.eq_dec j i) as [->|N];
          [rewrite setp_same in G; rewrite P; exact G|rewrite setp_other in G by exact N; exact G].
  - destruct I as (L & A & D & X & Y). subst d. pose proof (A i) as Ai. cbn beta in Ai. rewrite Nat.leb_refl in Ai.
    assert (Lb := L). apply Nat.ltb_lt in Lb. rewrite Lb in Ai. cbn [andb] in Ai.
    destruct Ai as [[P V]|[[P V]|[[P V]|[P V]]]]; rewrite P in *.
    + congruence.
    + inversion E; subst s'; clear E. unfold Inv, Inv2; cbn [c fp fv os dead]. rewrite P. auto 10.
    + inversion E; subst s'; clear E. unfold Inv, Inv2; cbn [c fp fv os dead]. rewrite P. auto 10.
    + inversion E; subst s'; clear E.
      split; [|unfold Inv2, next_retract; cbn [c]; destruct (S i <? n); exact I].
      apply next_retract_inv; [exact L| |cbn; auto|discriminate].
      intros j. specialize (A j). cbn beta in *. destruct (Nat.eq_dec j i) as [->|N].
      * assert (S i <=? i = false) as -> by (apply Nat.leb_gt; lia). right. auto.
      * destruct (Nat.leb_spec i j), (Nat.leb_spec (S i) j); cbn [andb] in *; auto; lia.
  - discriminate.
Qed.
Lemma init_inv : forall n, 0 < n -> Inv n init /\ Inv2 n init.
Proof.
  intros n L. unfold Inv, Inv2, init; cbn [c fp fv os dead]. split; [|discriminate]. split; [exact L|]. split; [|reflexivity].
  intros j. cbn beta. left. split; [reflexivity|now left].
Qed.
Lemma reach_inv : forall n s, 0 < n -> reach n s -> Inv n s /\ Inv2 n s.
Proof.
  intros n s L H. induction H as [|s a s' H [I J] E]; [exact (init_inv n L)|].
  destruct a as [|i]; [exact (caller_inv _ _ _ I J E)|exact (server_inv _ _ _ _ I J E)].
Qed.
