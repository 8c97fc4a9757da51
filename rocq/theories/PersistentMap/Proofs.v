From Coq Require Import ZArith List Bool Arith Lia Permutation.
From Verif.PersistentMap Require Import Model Spec.
Import ListNotations.
Open Scope Z_scope.

Section P.
Context {V : Type}.
Notation base := (list (Z * V)). Notation heap := (heap V).
Notation env := (Z -> option V).
Definition bind (e : env) k v : env := fun x => if x =? k then Some v else e x.
Definition unbind (e : env) k : env := fun x => if x =? k then None else e x.

Definition keys (m : base) := map fst m.
Lemma mfind_none (m : base) k : mfind m k = None <-> ~ In k (keys m).
Proof.
  induction m as [|[k' v] m IH]; cbn; [tauto|]. destruct (Z.eqb_spec k k').
  - subst. split; [discriminate|tauto].
  - rewrite IH. intuition.
Qed.
Lemma memplace_find m k v : mfind m k = None -> forall x, mfind (memplace m k v) x = bind (mfind m) k v x.
Proof. unfold memplace, bind. intros -> x. reflexivity. Qed.
Lemma memplace_nodup m k v : NoDup (keys m) -> NoDup (keys (memplace m k v)).
Proof.
  unfold memplace. destruct (mfind m k) eqn:E; auto. intros H. cbn. constructor; auto. apply mfind_none; auto.
Qed.
Lemma merase_in m k x : In x (keys (merase m k)) -> In x (keys m).
Proof. induction m as [|[k' v] m IH]; cbn; auto. destruct (k =? k'); cbn; tauto. Qed.
Lemma merase_nodup m k : NoDup (keys m) -> NoDup (keys (merase m k)).
Proof.
  induction m as [|[k' v] m IH]; cbn; auto. intros H; inversion H; subst. destruct (k =? k'); auto. cbn. constructor; auto.
  intros G; apply merase_in in G; auto.
Qed.
Lemma merase_find m k : NoDup (keys m) -> forall x, mfind (merase m k) x = unbind (mfind m) k x.
Proof.
  unfold unbind. induction m as [|[k' v] m IH]; intros H x; cbn; [destruct (x =? k); auto|].
  inversion H; subst. destruct (Z.eqb_spec k k') as [->|].
  - destruct (Z.eqb_spec x k') as [->|]; auto. apply mfind_none; auto.
  - cbn. rewrite IH by auto. destruct (Z.eqb_spec x k') as [->|]; auto. destruct (Z.eqb_spec k' k); congruence.
Qed.
Lemma massign_keys m k v : keys (massign m k v) = keys m.
Proof. induction m as [|[k' v'] m IH]; cbn; auto. unfold keys in *. destruct (k =? k'); cbn; congruence. Qed.
Lemma massign_find m k v : mfind m k <> None -> forall x, mfind (massign m k v) x = bind (mfind m) k v x.
Proof.
  unfold bind. induction m as [|[k' v'] m IH]; intros H x; cbn in *; [congruence|].
  destruct (Z.eqb_spec k k') as [->|].
  - cbn. destruct (x =? k'); auto.
  - cbn. rewrite IH by auto. destruct (Z.eqb_spec x k') as [->|]; auto. destruct (Z.eqb_spec k' k); congruence.
Qed.

(** semantic invariant for ghost values [val] *)
Definition node_ok (val : nat -> env) (n : nat) (i : nat) (x : node V) : Prop :=
  match x with
  | BASE m => NoDup (keys m) /\ (forall k, mfind m k = val i k)
  | REM b k => (b < n)%nat /\ val b k <> None /\ (forall x, val i x = unbind (val b) k x)
  | INS b k v => (b < n)%nat /\ val b k = None /\ (forall x, val i x = bind (val b) k v x)
  | UPD b k v => (b < n)%nat /\ val b k <> None /\ (forall x, val i x = bind (val b) k v x)
  end.
Inductive path (h : heap) : nat -> nat -> Prop :=
| p_base i m : nodes h i = BASE m -> path h i 0
| p_step i b n : (nodes h i = (match nodes h i with REM _ k => REM b k | INS _ k v => INS b k v | UPD _ k v => UPD b k v | BASE m => BASE m end)) ->
    (forall m, nodes h i <> BASE m) -> path h b n -> path h i (S n).
Definition inv (h : heap) (val : nat -> env) : Prop :=
  forall i, (i < next h)%nat -> node_ok val (next h) i (nodes h i) /\ exists n, path h i n.

Definition parent (x : node V) : option nat := match x with BASE _ => None | REM b _ | INS b _ _ | UPD b _ _ => Some b end.
Lemma path_inv h i n : path h i n -> match n with O => exists m, nodes h i = BASE m | S n' => exists b, parent (nodes h i) = Some b /\ path h b n' end.
Proof.
  intros H; destruct H as [i m H|i b n H1 H2 H3]; [eauto|]. exists b. split; auto.
  destruct (nodes h i) as [m|c k|c k v|c k v]; cbn; [destruct (H2 m eq_refl)|congruence..].
Qed.
Lemma path_0 h i m : nodes h i = BASE m -> path h i 0.
Proof. apply p_base. Qed.
Lemma path_S h i b n : parent (nodes h i) = Some b -> path h b n -> path h i (S n).
Proof.
  intros H1 H2. apply (p_step h i b n); auto; destruct (nodes h i); cbn in *; congruence.
Qed.
Lemma path_det h i n : path h i n -> forall n', path h i n' -> n = n'.
Proof.
  revert i; induction n as [|n IH]; intros i H n' H'; apply path_inv in H; apply path_inv in H'.
  - destruct H as [m H], n' as [|n']; auto. destruct H' as (b & H' & _). rewrite H in H'. discriminate.
  - destruct H as (b & Hb & H). destruct n' as [|n'].
    + destruct H' as [m H']. rewrite H' in Hb. discriminate.
    + destruct H' as (b' & Hb' & H'). assert (b = b') by congruence. subst. f_equal. eauto.
Qed.

(** flipping the edge i -> b with b the root *)
Lemma flip h i b nb m mb : parent (nodes h i) = Some b -> nodes h b = BASE mb -> parent nb = Some i ->
  forall j n, path h j n -> exists n', path (put (put h b nb) i (BASE m)) j n'.
Proof.
  intros Hi Hb Hnb j n Hj. assert (Hne : i <> b) by (intros ->; rewrite Hb in Hi; discriminate).
  revert j Hj. induction n as [|n IH]; intros j Hj.
  - assert (Pi : path (put (put h b nb) i (BASE m)) i 0) by (apply (path_0 _ _ m); cbn; rewrite Nat.eqb_refl; auto).
    destruct (Nat.eq_dec j i) as [->|Hji]; [eauto|]. destruct (Nat.eq_dec j b) as [->|Hjb].
    + exists 1%nat. apply (path_S _ b i); auto. cbn. destruct (Nat.eqb_spec b i); [congruence|]. rewrite Nat.eqb_refl. auto.
    + apply path_inv in Hj. destruct Hj as [m0 Hj]. exists 0%nat. apply (path_0 _ _ m0). cbn.
      destruct (Nat.eqb_spec j i); [congruence|]. destruct (Nat.eqb_spec j b); [congruence|]. auto.
  - assert (Pi : path (put (put h b nb) i (BASE m)) i 0) by (apply (path_0 _ _ m); cbn; rewrite Nat.eqb_refl; auto).
    destruct (Nat.eq_dec j i) as [->|Hji]; [eauto|].
    apply path_inv in Hj. destruct Hj as (c & Hc & Hj). destruct (IH _ Hj) as [n' Hn'].
    exists (S n'). apply (path_S _ j c); auto. cbn. destruct (Nat.eqb_spec j i); [congruence|]. destruct (Nat.eqb_spec j b); [|auto].
    subst j. rewrite Hb in Hc. discriminate.
Qed.

Lemma unbind_bind (e e' : env) k v : (forall x, e' x = unbind e k x) -> e k = Some v -> forall x, e x = bind e' k v x.
Proof. unfold unbind, bind. intros H E x. rewrite H. destruct (Z.eqb_spec x k); congruence. Qed.
Lemma bind_unbind (e e' : env) k v : (forall x, e' x = bind e k v x) -> e k = None -> forall x, e x = unbind e' k x.
Proof. unfold unbind, bind. intros H E x. rewrite H. destruct (Z.eqb_spec x k); congruence. Qed.
Lemma bind_bind (e e' : env) k v v0 : (forall x, e' x = bind e k v x) -> e k = Some v0 -> forall x, e x = bind e' k v0 x.
Proof. unfold unbind, bind. intros H E x. rewrite H. destruct (Z.eqb_spec x k); congruence. Qed.


Lemma path_bound h val : inv h val -> forall n i, (i < next h)%nat -> path h i n -> (n < next h)%nat.
Proof.
  intros Hinv n i Hi Hp.
  assert (G : forall n i, (i < next h)%nat -> path h i n -> exists l, length l = S n /\ NoDup l /\
    forall x, In x l -> (x < next h)%nat /\ exists p, (p <= n)%nat /\ path h x p).
  { clear n i Hi Hp. induction n as [|n IH]; intros i Hi Hp.
    - exists [i]. split; auto. split; [repeat constructor; intros []|]. intros x [<-|[]]. split; auto. exists 0%nat. auto.
    - assert (Hp0 := Hp). apply path_inv in Hp. destruct Hp as (b & Hb & Hp).
      assert (Hbn : (b < next h)%nat).
      { destruct (Hinv i Hi) as [Ho _]. destruct (nodes h i); cbn in *; try discriminate; injection Hb as ->; tauto. }
      destruct (IH b Hbn Hp) as (l & L1 & L2 & L3). exists (i :: l). split; [cbn; congruence|]. split.
      + constructor; auto. intros Hin. destruct (L3 i Hin) as (_ & p & Hle & Hpp). assert (p = S n) by (eapply path_det; eauto). lia.
      + intros x [<-|Hx]; [split; auto; exists (S n); auto|]. destruct (L3 x Hx) as (L4 & p & L5 & L6). split; auto. exists p. split; auto; lia. }
  destruct (G n i Hi Hp) as (l & L1 & L2 & L3).
  assert (length l <= length (seq 0 (next h)))%nat.
  { apply NoDup_incl_length; auto. intros x Hx. apply in_seq. destruct (L3 x Hx). lia. }
  rewrite seq_length in H. lia.
Qed.

Lemma reroot_spec val : forall n fuel h i, inv h val -> (i < next h)%nat -> path h i n -> (n <= fuel)%nat ->
  exists h' m, reroot fuel h i = Some h' /\ nodes h' i = BASE m /\ inv h' val /\ next h' = next h /\
    (forall j, (forall p, path h j p -> (n < p)%nat) -> nodes h' j = nodes h j).
Proof.
  induction n as [|n IH]; intros fuel h i Hinv Hi Hp Hf; assert (Hp0 := Hp); apply path_inv in Hp.
  - destruct Hp as [m Hm]. exists h, m. destruct fuel; cbn; rewrite Hm; repeat split; auto; apply Hinv; auto.
  - destruct Hp as (b & Hb & Hp). destruct fuel as [|fuel]; [lia|].
    assert (Hbn : (b < next h)%nat).
    { destruct (Hinv i Hi) as [Ho _]. destruct (nodes h i); cbn in *; try discriminate; injection Hb as ->; tauto. }
    destruct (IH fuel h b Hinv Hbn Hp ltac:(lia)) as (h1 & mb & R1 & R2 & R3 & R4 & R5).
    assert (Hsame : nodes h1 i = nodes h i).
    { apply R5. intros p Pp. assert (p = S n) by (eapply path_det; eauto). lia. }
    assert (Hi1 : (i < next h1)%nat) by lia.
    assert (Hbn1 : (b < next h1)%nat) by lia.
    assert (Ob : node_ok val (next h1) b (BASE mb)) by (rewrite <- R2; apply R3; lia). destruct Ob as [Ob1 Ob2].
    assert (Oi : node_ok val (next h1) i (nodes h1 i)) by (apply R3; lia).
    assert (Hib : i <> b) by (intros ->; rewrite R2 in Hsame; rewrite <- Hsame in Hb; discriminate).
    assert (FIN : forall nb m, parent nb = Some i -> NoDup (keys m) -> (forall k, mfind m k = val i k) -> node_ok val (next h1) b nb ->
       inv (put (put h1 b nb) i (BASE m)) val).
    { intros nb m Pnb Dm Fm Onb j Hj. cbn in Hj. split.
      - cbn. destruct (Nat.eqb_spec j i) as [->|]; [split; auto|]. destruct (Nat.eqb_spec j b) as [->|]; [exact Onb|]. apply R3; auto.
      - destruct (R3 j Hj) as [_ [q Hq]]. eapply flip; eauto. rewrite Hsame; auto. }
    assert (CH : forall nb m j, (forall p, path h j p -> (S n < p)%nat) -> nodes (put (put h1 b nb) i (BASE m)) j = nodes h j).
    { intros nb m j Hj. cbn. destruct (Nat.eqb_spec j i) as [->|]; [specialize (Hj _ Hp0); lia|].
      destruct (Nat.eqb_spec j b) as [->|]; [specialize (Hj _ Hp); lia|]. apply R5. intros p Pp. specialize (Hj _ Pp). lia. }
    cbn [reroot]. destruct (nodes h i) as [m|c k|c k v|c k v] eqn:En; [discriminate| | |];
      cbn in Hb; injection Hb as ->; rewrite R1, R2, Hsame; rewrite Hsame in Oi; cbn in Oi; destruct Oi as (_ & O2 & O3).
    + rewrite Ob2. destruct (val b k) as [old|] eqn:Eo; [|congruence].
      eexists _, _; split; [reflexivity|]. split; [cbn; rewrite Nat.eqb_refl; reflexivity|]. split; [|split; auto].
      apply FIN; auto using merase_nodup.
      * intros x. rewrite merase_find, O3 by auto. unfold unbind. rewrite Ob2. auto.
      * cbn. split; [lia|]. split; [rewrite O3; unfold unbind; rewrite Z.eqb_refl; auto|]. eapply unbind_bind; eauto.
    + eexists _, _; split; [reflexivity|]. split; [cbn; rewrite Nat.eqb_refl; reflexivity|]. split; [|split; auto].
      assert (En2 : mfind mb k = None) by (rewrite Ob2; auto).
      apply FIN; auto using memplace_nodup.
      * intros x. rewrite memplace_find, O3 by auto. unfold bind. rewrite Ob2. auto.
      * cbn. split; [lia|]. split; [rewrite O3; unfold bind; rewrite Z.eqb_refl; discriminate|]. eapply bind_unbind; eauto.
    + rewrite Ob2. destruct (val b k) as [old|] eqn:Eo; [|congruence].
      eexists _, _; split; [reflexivity|]. split; [cbn; rewrite Nat.eqb_refl; reflexivity|]. split; [|split; auto].
      apply FIN; auto.
      * rewrite massign_keys; auto.
      * intros x. rewrite massign_find, O3 by (rewrite Ob2; congruence). unfold bind. rewrite Ob2. auto.
      * cbn. split; [lia|]. split; [rewrite O3; unfold bind; rewrite Z.eqb_refl; discriminate|]. eapply bind_bind; eauto.
Qed.

Lemma rerooted_spec val h i : inv h val -> (i < next h)%nat ->
  exists h' m, rerooted h i = Some (h', m) /\ nodes h' i = BASE m /\ inv h' val /\ next h' = next h /\ NoDup (keys m) /\ (forall k, mfind m k = val i k).
Proof.
  intros Hinv Hi. destruct (Hinv i Hi) as [_ [n Hn]]. assert (B := path_bound _ _ Hinv _ _ Hi Hn).
  destruct (reroot_spec val n (next h) h i Hinv Hi Hn ltac:(lia)) as (h' & m & R1 & R2 & R3 & R4 & _).
  exists h', m. unfold rerooted. rewrite R1, R2. assert (O := proj1 (R3 i ltac:(lia))). rewrite R2 in O. destruct O. auto 10.
Qed.

(** adding a new root [ret] below [this] *)
Lemma grow h val i m nt m' e : inv h val -> (i < next h)%nat -> nodes h i = BASE m -> parent nt = Some (next h) ->
  NoDup (keys m') -> (forall k, mfind m' k = e k) ->
  (forall val', (forall j, (j < next h)%nat -> val' j = val j) -> val' (next h) = e -> node_ok val' (S (next h)) i nt) ->
  exists val', inv (put (put (fst (alloc h (BASE m))) i nt) (next h) (BASE m')) val' /\
    (forall j, (j < next h)%nat -> val' j = val j) /\ val' (next h) = e.
Proof.
  intros Hinv Hi Hm Hnt Hd Hf Hok.
  pose (val' := fun j => if Nat.eqb j (next h) then e else val j). exists val'.
  assert (A : forall j, (j < next h)%nat -> val' j = val j).
  { intros j Hj. unfold val'. destruct (Nat.eqb_spec j (next h)); auto; lia. }
  assert (B : val' (next h) = e) by (unfold val'; rewrite Nat.eqb_refl; auto).
  split; [|split; auto].
  set (h' := put (put (fst (alloc h (BASE m))) i nt) (next h) (BASE m')).
  assert (Pr : path h' (next h) 0). { apply (path_0 _ _ m'). unfold h'; cbn. rewrite Nat.eqb_refl. auto. }
  assert (Pi : path h' i 1).
  { apply (path_S _ i (next h)); auto. unfold h'; cbn. destruct (Nat.eqb_spec i (next h)); [lia|]. rewrite Nat.eqb_refl. auto. }
  intros j Hj. cbn in Hj. split.
  - unfold h'; cbn. destruct (Nat.eqb_spec j (next h)) as [->|Hn].
    + split; auto. intros k. rewrite Hf. unfold val'. rewrite Nat.eqb_refl. auto.
    + destruct (Nat.eqb_spec j i) as [->|Hn2].
      * apply Hok; auto.
      * destruct (Hinv j ltac:(lia)) as [O _]. destruct (nodes h j) as [m0|c k|c k v|c k v]; cbn in *.
        -- rewrite (A j) by lia. auto.
        -- destruct O as (O1 & O2 & O3). rewrite (A j), (A c) by lia. split; [lia|auto].
        -- destruct O as (O1 & O2 & O3). rewrite (A j), (A c) by lia. split; [lia|auto].
        -- destruct O as (O1 & O2 & O3). rewrite (A j), (A c) by lia. split; [lia|auto].
  - destruct (Nat.eq_dec j (next h)) as [->|Hn]; [eauto|]. destruct (Hinv j ltac:(lia)) as [_ [q Hq]].
    assert (Hj' : (j < next h)%nat) by lia. clear Hj Hn. revert j Hj' Hq. induction q as [|q IH]; intros j Hj Hq.
    + apply path_inv in Hq. destruct Hq as [m0 Hm0]. destruct (Nat.eq_dec j i) as [->|Hn]; [eauto|].
      exists 0%nat. apply (path_0 _ _ m0). unfold h'; cbn. destruct (Nat.eqb_spec j (next h)); [lia|]. destruct (Nat.eqb_spec j i); [congruence|]. auto.
    + destruct (Nat.eq_dec j i) as [->|Hn]; [eauto|]. apply path_inv in Hq. destruct Hq as (c & Hc & Hq).
      assert (Hcn : (c < next h)%nat).
      { destruct (Hinv j Hj) as [Ho _]. destruct (nodes h j); cbn in *; try discriminate; injection Hc as ->; tauto. }
      destruct (IH c Hcn Hq) as [n' Hn']. exists (S n'). apply (path_S _ j c); auto.
      unfold h'; cbn. destruct (Nat.eqb_spec j (next h)); [lia|]. destruct (Nat.eqb_spec j i); [congruence|]. auto.
Qed.

Lemma set_spec val h i k v : inv h val -> (i < next h)%nat -> exists h' r val', set h i k v = Some (h', r) /\ inv h' val' /\
  (next h <= next h')%nat /\ (r < next h')%nat /\ (forall j, (j < next h)%nat -> val' j = val j) /\ (forall x, val' r x = bind (val i) k v x).
Proof.
  intros Hinv Hi. destruct (rerooted_spec val h i Hinv Hi) as (h1 & m & R & Rn & Rinv & Rnx & Rd & Rf).
  unfold set. rewrite R. cbn [alloc]. 
  assert (Hi1 : (i < next h1)%nat) by lia.
  destruct (mfind m k) as [old|] eqn:Ek.
  - destruct (grow h1 val i m (UPD (next h1) k old) (massign m k v) (bind (val i) k v) Rinv Hi1 Rn eq_refl) as (val' & G1 & G2 & G3).
    + rewrite massign_keys; auto.
    + intros x. rewrite massign_find by congruence. unfold bind. rewrite Rf. auto.
    + intros val' A B. cbn. rewrite B, (A i) by lia. split; [lia|]. split; [unfold bind; rewrite Z.eqb_refl; discriminate|].
      intros x. unfold bind. destruct (Z.eqb_spec x k) as [->|]; auto. rewrite <- Rf. auto.
    + eexists _, _, val'. split; [reflexivity|]. split; [exact G1|]. cbn. rewrite Rnx in *. repeat split; auto; try lia. rewrite G3; auto.
  - destruct (grow h1 val i m (REM (next h1) k) (memplace m k v) (bind (val i) k v) Rinv Hi1 Rn eq_refl) as (val' & G1 & G2 & G3).
    + apply memplace_nodup; auto.
    + intros x. rewrite memplace_find by congruence. unfold bind. rewrite Rf. auto.
    + intros val' A B. cbn. rewrite B, (A i) by lia. split; [lia|]. split; [unfold bind; rewrite Z.eqb_refl; discriminate|].
      intros x. unfold bind, unbind. destruct (Z.eqb_spec x k) as [->|]; auto. rewrite <- Rf. auto.
    + eexists _, _, val'. split; [reflexivity|]. split; [exact G1|]. cbn. rewrite Rnx in *. repeat split; auto; try lia. rewrite G3; auto.
Qed.
Lemma erase_spec val h i k : inv h val -> (i < next h)%nat -> exists h' r val', erase h i k = Some (h', r) /\ inv h' val' /\
  (next h <= next h')%nat /\ (r < next h')%nat /\ (forall j, (j < next h)%nat -> val' j = val j) /\ (forall x, val' r x = unbind (val i) k x).
Proof.
  intros Hinv Hi. destruct (rerooted_spec val h i Hinv Hi) as (h1 & m & R & Rn & Rinv & Rnx & Rd & Rf).
  unfold erase. rewrite R. cbn [alloc].
  assert (Hi1 : (i < next h1)%nat) by lia.
  destruct (mfind m k) as [old|] eqn:Ek.
  - destruct (grow h1 val i m (INS (next h1) k old) (merase m k) (unbind (val i) k) Rinv Hi1 Rn eq_refl) as (val' & G1 & G2 & G3).
    + apply merase_nodup; auto.
    + intros x. rewrite merase_find by auto. unfold unbind. rewrite Rf. auto.
    + intros val' A B. cbn. rewrite B, (A i) by lia. split; [lia|]. split; [unfold unbind; rewrite Z.eqb_refl; auto|].
      intros x. unfold bind, unbind. destruct (Z.eqb_spec x k) as [->|]; auto. rewrite <- Rf. auto.
    + eexists _, _, val'. split; [reflexivity|]. split; [exact G1|]. cbn. rewrite Rnx in *. repeat split; auto; try lia. rewrite G3; auto.
  - exists h1, i, val. repeat split; auto; try lia; try apply Rinv; auto. intros x. unfold unbind. destruct (Z.eqb_spec x k) as [->|]; auto.
    rewrite <- Rf. auto.
Qed.
Lemma new_spec val h : inv h val -> exists val', inv (fst (new_ptr h)) val' /\ snd (new_ptr h) = next h /\ next (fst (new_ptr h)) = S (next h) /\
  (forall j, (j < next h)%nat -> val' j = val j) /\ (forall x, val' (next h) x = None).
Proof.
  intros Hinv. pose (val' := fun j => if Nat.eqb j (next h) then (fun _ => None) else val j). exists val'. cbn [new_ptr alloc fst snd put next].
  assert (A : forall j, (j < next h)%nat -> val' j = val j).
  { intros j Hj. unfold val'. destruct (Nat.eqb_spec j (next h)); auto; lia. }
  assert (B : val' (next h) = fun _ => None) by (unfold val'; rewrite Nat.eqb_refl; auto).
  repeat split; auto; [..|intros; rewrite B; auto].
  - cbn in *. destruct (Nat.eqb_spec i (next h)) as [->|Hn].
    + cbn. rewrite B. split; [constructor|auto].
    + destruct (Hinv i ltac:(lia)) as [O _]. destruct (nodes h i) as [m0|c k|c k v|c k v]; cbn in *.
        * rewrite (A i) by lia. auto.
        * destruct O as (O1 & O2 & O3). rewrite (A i), (A c) by lia. split; [lia|auto].
        * destruct O as (O1 & O2 & O3). rewrite (A i), (A c) by lia. split; [lia|auto].
        * destruct O as (O1 & O2 & O3). rewrite (A i), (A c) by lia. split; [lia|auto].
  - set (h' := put {| nodes := nodes h; next := S (next h) |} (next h) (BASE [])) in *. cbn in H.
    destruct (Nat.eq_dec i (next h)) as [->|Hn].
    + exists 0%nat. apply (path_0 _ _ []). unfold h'; cbn. rewrite Nat.eqb_refl. auto.
    + destruct (Hinv i ltac:(lia)) as [_ [q Hq]]. exists q. assert (Hi : (i < next h)%nat) by lia. clear H Hn.
      revert i Hi Hq. induction q as [|q IH]; intros i Hi Hq; apply path_inv in Hq.
      * destruct Hq as [m0 Hm0]. apply (path_0 _ _ m0). unfold h'; cbn. destruct (Nat.eqb_spec i (next h)); [lia|auto].
      * destruct Hq as (c & Hc & Hq). apply (path_S _ i c).
        -- unfold h'; cbn. destruct (Nat.eqb_spec i (next h)); [lia|auto].
        -- apply IH; auto. destruct (Hinv i Hi) as [Ho _]. destruct (nodes h i); cbn in *; try discriminate; injection Hc as ->; tauto.
Qed.

(** specification maps *)
Definition smrel (m : fmap) (e : env) : Prop := NoDup (keys m) /\ forall k, lookup k m = e k.
Lemma lookup_mfind (m : base) k : lookup k m = mfind m k.
Proof.
  unfold lookup. induction m as [|[k' v] m IH]; cbn; auto. destruct (k =? k'); auto.
Qed.
Lemma without_keys k (m : base) x : In x (keys (without k m)) <-> In x (keys m) /\ x <> k.
Proof.
  unfold without. induction m as [|[k' v] m IH]; cbn; [tauto|]. destruct (Z.eqb_spec k k'); cbn; rewrite ?IH; intuition congruence.
Qed.
Lemma without_nodup k (m : base) : NoDup (keys m) -> NoDup (keys (without k m)).
Proof.
  induction m as [|[k' v] m IH]; cbn; auto. intros H; inversion H; subst. specialize (IH H3).
  destruct (k =? k'); cbn; auto. constructor; auto. fold (without k m). rewrite without_keys. tauto.
Qed.
Lemma without_lookup k (m : base) x : lookup x (without k m) = unbind (fun y => lookup y m) k x.
Proof.
  rewrite lookup_mfind. unfold unbind. rewrite lookup_mfind. unfold without. induction m as [|[k' v] m IH]; cbn; [destruct (x =? k); auto|].
  destruct (Z.eqb_spec k k'); cbn; rewrite IH; destruct (Z.eqb_spec x k'), (Z.eqb_spec x k); auto; congruence.
Qed.
Lemma same_size (m : fmap) (b : base) : NoDup (keys m) -> NoDup (keys b) -> (forall k, lookup k m = mfind b k) -> length m = length b.
Proof.
  intros D1 D2 H. rewrite <- (map_length fst m), <- (map_length fst b). apply Permutation_length. apply NoDup_Permutation; auto.
  intros k. assert (E := H k). rewrite lookup_mfind in E. assert (N1 := mfind_none m k). assert (N2 := mfind_none b k). rewrite E in N1.
  fold (keys m) (keys b). destruct (mfind b k); [|tauto].
  assert (forall l : base, In k (keys l) \/ ~ In k (keys l)) by (intros l; destruct (in_dec Z.eq_dec k (keys l)); auto).
  destruct (H0 m), (H0 b); try tauto; exfalso; intuition congruence.
Qed.
Lemma count_find (b : base) k : NoDup (keys b) -> length (filter (fun p => k =? fst p) b) = (match mfind b k with Some _ => 1 | None => 0 end)%nat.
Proof.
  induction b as [|[k' v] b IH]; cbn; auto. intros H; inversion H; subst. destruct (Z.eqb_spec k k') as [->|]; cbn; auto.
  rewrite IH by auto. apply mfind_none in H2. rewrite H2. auto.
Qed.

Definition Inv (s : heap * list nat) (ms : list fmap) : Prop :=
  exists val, inv (fst s) val /\ Forall2 (fun i m => (i < next (fst s))%nat /\ smrel m (val i)) (snd s) ms.
Lemma Forall2_nth {A B} (R : A -> B -> Prop) l l' : Forall2 R l l' -> forall x,
  match nth_error l x, nth_error l' x with Some a, Some b => R a b | None, None => True | _, _ => False end.
Proof. induction 1; intros [|n]; cbn; auto. apply IHForall2. Qed.
Lemma Forall2_mono {A B} (R R' : A -> B -> Prop) l l' : (forall a b, R a b -> R' a b) -> Forall2 R l l' -> Forall2 R' l l'.
Proof. induction 2; constructor; auto. Qed.
Lemma Forall2_snoc {A B} (R : A -> B -> Prop) l l' a b : Forall2 R l l' -> R a b -> Forall2 R (l ++ [a]) (l' ++ [b]).
Proof. induction 1; cbn; intros; repeat constructor; auto. Qed.

Lemma step_spec s ms o : Inv s ms -> exists s', step s o = Some (s', snd (spec_step ms o)) /\ Inv s' (fst (spec_step ms o)).
Proof.
  destruct s as [h hs]. intros (val & Hinv & HF). cbn [fst snd] in *.
  assert (N : forall x, match nth_error hs x, nth_error ms x with Some i, Some m => (i < next h)%nat /\ smrel m (val i) | None, None => True | _, _ => False end).
  { intros x. exact (Forall2_nth _ _ _ HF x). }
  destruct o as [|x k v|x k|x k|x k|x|x]; cbn [step spec_step]; try specialize (N x).
  - destruct (new_spec val h Hinv) as (val' & N1 & N2 & N3 & N4 & N5). destruct (new_ptr h) as [h' i]; cbn [fst snd] in *. subst i.
    eexists; split; [reflexivity|]. exists val'. cbn. split; auto. apply Forall2_snoc.
    + apply (Forall2_mono _ _ _ _) with (2 := HF). intros i m [Hi Hm]. rewrite N4 by auto. split; [lia|auto].
    + split; [lia|]. split; [constructor|]. intros k. rewrite N5. reflexivity.
  - destruct (nth_error hs x) as [i|], (nth_error ms x) as [m|]; try contradiction; cbn [fst snd]; [|eexists; split; [reflexivity|]; exists val; auto].
    destruct N as [Hi [Hm1 Hm2]]. destruct (set_spec val h i k v Hinv Hi) as (h' & r & val' & S1 & S2 & S3 & S4 & S5 & S6). rewrite S1.
    eexists; split; [reflexivity|]. exists val'. cbn. split; auto. apply Forall2_snoc.
    + apply (Forall2_mono _ _ _ _) with (2 := HF). intros j m0 [Hj Hm]. rewrite S5 by auto. split; [lia|auto].
    + split; [lia|]. split.
      * cbn. constructor; [|apply without_nodup; auto]. rewrite without_keys. tauto.
      * intros y. rewrite S6. unfold bind. rewrite lookup_mfind. cbn. destruct (Z.eqb_spec y k); auto.
        rewrite <- lookup_mfind, without_lookup. unfold unbind. destruct (Z.eqb_spec y k); [congruence|auto].
  - destruct (nth_error hs x) as [i|], (nth_error ms x) as [m|]; try contradiction; cbn [fst snd]; [|eexists; split; [reflexivity|]; exists val; auto].
    destruct N as [Hi [Hm1 Hm2]]. destruct (erase_spec val h i k Hinv Hi) as (h' & r & val' & S1 & S2 & S3 & S4 & S5 & S6). rewrite S1.
    eexists; split; [reflexivity|]. exists val'. cbn. split; auto. apply Forall2_snoc.
    + apply (Forall2_mono _ _ _ _) with (2 := HF). intros j m0 [Hj Hm]. rewrite S5 by auto. split; [lia|auto].
    + split; [lia|]. split; [apply without_nodup; auto|]. intros y. rewrite S6, without_lookup. unfold unbind. rewrite Hm2. auto.
  - destruct (nth_error hs x) as [i|], (nth_error ms x) as [m|]; try contradiction; cbn [fst snd]; [|eexists; split; [reflexivity|]; exists val; auto].
    destruct N as [Hi [Hm1 Hm2]]. destruct (rerooted_spec val h i Hinv Hi) as (h1 & b & R & Rn & Rinv & Rnx & Rd & Rf).
    unfold find. rewrite R, Rf, Hm2. eexists; split; [reflexivity|]. exists val. cbn. rewrite Rnx. auto.
  - destruct (nth_error hs x) as [i|], (nth_error ms x) as [m|]; try contradiction; cbn [fst snd]; [|eexists; split; [reflexivity|]; exists val; auto].
    destruct N as [Hi [Hm1 Hm2]]. destruct (rerooted_spec val h i Hinv Hi) as (h1 & b & R & Rn & Rinv & Rnx & Rd & Rf).
    unfold count. rewrite R, count_find by auto. rewrite Rf, Hm2. eexists; split; [reflexivity|]. exists val. cbn. rewrite Rnx. auto.
  - destruct (nth_error hs x) as [i|], (nth_error ms x) as [m|]; try contradiction; cbn [fst snd]; [|eexists; split; [reflexivity|]; exists val; auto].
    destruct N as [Hi [Hm1 Hm2]]. destruct (rerooted_spec val h i Hinv Hi) as (h1 & b & R & Rn & Rinv & Rnx & Rd & Rf).
    unfold size. rewrite R. rewrite (same_size m b) by (auto; intros; rewrite Rf; auto). eexists; split; [reflexivity|]. exists val. cbn. rewrite Rnx. auto.
  - destruct (nth_error hs x) as [i|], (nth_error ms x) as [m|]; try contradiction; cbn [fst snd]; [|eexists; split; [reflexivity|]; exists val; auto].
    destruct N as [Hi [Hm1 Hm2]]. destruct (rerooted_spec val h i Hinv Hi) as (h1 & b & R & Rn & Rinv & Rnx & Rd & Rf).
    unfold empty. rewrite R. rewrite (same_size m b) by (auto; intros; rewrite Rf; auto).
    exists (h1, hs). split; [destruct b; reflexivity|]. exists val. cbn. rewrite Rnx. auto.
Qed.
Lemma run_spec os : forall s ms, Inv s ms -> run s os = Some (spec_run ms os).
Proof.
  induction os as [|o os IH]; intros s ms H; [reflexivity|]. cbn [run spec_run].
  destruct (step_spec s ms o H) as (s' & S1 & S2). rewrite S1. destruct (spec_step ms o) as [ms' x]; cbn [fst snd] in *.
  rewrite (IH _ _ S2). reflexivity.
Qed.
Lemma Inv_init : Inv initial [].
Proof. exists (fun _ _ => None). cbn. split; [intros i Hi; cbn in Hi; lia|constructor]. Qed.
End P.
