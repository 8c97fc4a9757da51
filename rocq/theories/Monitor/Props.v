(** C38, C40, C66: monitors. *)
From Coq Require Import List Bool Arith Lia.
From Verif.Monitor Require Import Spec Model Proofs.
Import ListNotations.

(** t is executing, and has an active call that locks m *)
Definition active (s : st) (t m : nat) : Prop := pcs (ts s t) = Run /\ exists f g, In (f, g) (fr (ts s t)) /\ In m g.
(** t has entered m and not left it, and is not waiting to get it back *)
Definition within (s : st) (t m : nat) : Prop := dep (ts s t) m > 0 /\ ~ (pcs (ts s t) = Slp /\ In m (nod (ts s t))).
Lemma cntf_pos m f : (exists k g, In (k, g) f /\ In m g) -> cntf m f > 0.
Proof. intros (k & g & A & B). unfold cntf, cnt. apply count_occ_In. apply in_concat. exists g; split; auto. apply in_map_iff. now exists (k, g). Qed.
Lemma active_within s t m : reach s -> active s t m -> within s t m.
Proof.
  intros R [P A]. apply inv_reach in R as I. pose proof (iK s I t m) as K. rewrite P in K. cbn beta iota in K. split; [rewrite K; now apply cntf_pos|intros [Q _]; congruence].
Qed.
Lemma within_own s t m : reach s -> within s t m -> own (ms s m) = Some t.
Proof. intros R [D N]. apply inv_reach in R as I. destruct (iA s I t m D) as [A|A]; auto. exfalso; apply N. destruct A as (A & B & _); auto. Qed.

(** Mutual exclusion. *)
Theorem C38_exclusive s : reach s -> exclusive (active s).
Proof. intros R t u m A B. apply active_within in A, B; auto. apply within_own in A, B; auto. congruence. Qed.
Print Assumptions C38_exclusive.
Theorem C38_exclusive_entered s : reach s -> exclusive (within s).
Proof. intros R t u m A B. apply within_own in A, B; auto. congruence. Qed.
Print Assumptions C38_exclusive_entered.
(** A running thread owns the monitors of all its active calls, and the recursion count is the number of those calls. *)
Theorem C38_recursion s t m : reach s -> active s t m -> own (ms s m) = Some t /\ rc (ms s m) = count_occ Nat.eq_dec (concat (map snd (fr (ts s t)))) m.
Proof.
  intros R A. pose proof (active_within _ _ _ R A) as W. pose proof (within_own _ _ _ R W) as O. destruct A as [P _]. apply inv_reach in R as I.
  split; auto. destruct (run_own s t m I P (proj1 W)) as (_ & E & _). rewrite E. pose proof (iK s I t m) as K. rewrite P in K. exact K.
Qed.
Print Assumptions C38_recursion.
(** A free monitor has nobody queued, signalled or awaited. *)
Theorem C38_free s m : reach s -> own (ms s m) = None -> entry (ms s m) = [] /\ sig (ms s m) = [] /\ mask (ms s m) = None /\ forall t r, pcs (ts s t) <> Blk m r.
Proof.
  intros R O. apply inv_reach in R as I.
  assert (B : forall t r, pcs (ts s t) <> Blk m r) by (intros t r H; destruct (iO s I m t r H); congruence).
  split; [|split; [now apply (iI s I)|split; auto]].
  - destruct (entry (ms s m)) as [|u q] eqn:E; auto. exfalso. destruct (proj1 (iH s I m u)) as [r H]; [rewrite E; now left|exact (B u r H)].
  - destruct (mask (ms s m)) as [[w k]|] eqn:E; auto. destruct (iE s I m w k E); congruence.
Qed.
Print Assumptions C38_free.
(** A thread blocked on entry is queued exactly once, at the monitor it wants, which another thread owns. *)
Theorem C38_queued s t m r : reach s -> pcs (ts s t) = Blk m r -> In t (entry (ms s m)) /\ NoDup (entry (ms s m)) /\ (forall i, In t (entry (ms s i)) -> i = m) /\ exists o, own (ms s m) = Some o /\ o <> t.
Proof.
  intros R P. apply inv_reach in R as I. split; [apply (iH s I); eauto|]. split; [apply (iHn s I)|]. split.
  - intros i H. apply (iH s I) in H as [q H]. congruence.
  - destruct (iO s I m t r P) as [A B]. destruct (own (ms s m)) as [o|]; [exists o; split; congruence|congruence].
Qed.
Print Assumptions C38_queued.
(** A thread that waits and is on no condition queue (it was signalled, or waits in signal_block or waitfor) still has a monitor to get back,
    is on the signal stack of each such monitor, and that monitor is owned by someone. *)
Theorem C38_not_lost s w : reach s -> pcs (ts s w) = Slp -> (exists c, In w (cq s c)) \/
  (exists m, In m (nod (ts s w)) /\ ~ In m (rdy (ts s w))) /\ forall m, In m (nod (ts s w)) -> ~ In m (rdy (ts s w)) -> In w (sig (ms s m)) /\ own (ms s m) <> None.
Proof.
  intros R P. apply inv_reach in R as I. destruct (iJ s I w P) as [A|A]; auto. right. split; [now apply (iJn s I)|].
  intros m M N. destruct (A m M) as [B|B]; [contradiction|]. split; auto. intro O. apply (iI s I) in O. rewrite O in B; contradiction.
Qed.
Print Assumptions C38_not_lost.

Ltac brk := match goal with |- context [if ?b then _ else _] => destruct b end; reflexivity.
Lemma leqbP a b : leqb a b = true <-> a = b.
Proof.
  revert b. induction a as [|x a IH]; intros [|y b]; cbn [leqb]; try (split; [discriminate|congruence]); try tauto.
  rewrite andb_true_iff, Nat.eqb_eq, IH. split; [intros [-> ->]; auto|intros [= -> ->]; auto].
Qed.
Lemma geqbP a b : geqb a b = true <-> a = b.
Proof. unfold geqb. rewrite andb_true_iff, Nat.eqb_eq, leqbP. destruct a, b; cbn [fst snd]. split; [intros [-> ->]; auto|intros [= -> ->]; auto]. Qed.
Lemma next_entry s m : entry (ms (next s m) m) = entry (ms s m) \/ entry (ms (next s m) m) = tl (entry (ms s m)).
Proof.
  unfold next. destruct (sig (ms s m)) as [|w r]; [destruct (entry (ms s m)) as [|u q] eqn:E|]; cbn [check setM setT ms].
  - rewrite upd_same. auto.
  - right. unfold admit. destruct (pcs _); cbn [setM deep setT ms]; now rewrite upd_same.
  - left. now rewrite upd_same.
Qed.
Lemma nexts_out l : forall s m, ~ In m l -> ms (fold_left next l s) m = ms s m.
Proof. induction l as [|a l IH]; intros s m N; cbn [fold_left]; auto. rewrite IH; [apply next_ms; intro; subst; apply N; now left|intro; apply N; now right]. Qed.
Lemma nexts_in l : forall s m, NoDup l -> In m l -> exists s1, ms s1 m = ms s m /\ ms (fold_left next l s) m = ms (next s1 m) m.
Proof.
  induction l as [|a l IH]; intros s m ND H; cbn [fold_left]; [destruct H|]. inversion ND as [|? ? N1 N2]; subst. destruct (Nat.eq_dec a m) as [E|E].
  - subst a. exists s. split; auto. now apply nexts_out.
  - destruct H as [H|H]; [congruence|]. destruct (IH (next s a) m N2 H) as (s1 & A & B). exists s1. split; auto. rewrite A. apply next_ms; auto.
Qed.
(** Entry is first come first served: a step changes an entry queue only by appending the thread that calls, by serving its head, or by a
    waitfor taking out the thread it accepts. *)
Theorem C38_entry_order s t a s' m : step s t a = Some s' ->
  entry (ms s' m) = entry (ms s m) \/ entry (ms s' m) = entry (ms s m) ++ [t] \/ entry (ms s' m) = tl (entry (ms s m)) \/
  exists k b u, a = Waitfor k b /\ entry (ms s' m) = filter (fun v => negb (v =? u)) (entry (ms s m)) /\ exists g q, In g k /\ fr (ts s u) = g :: q.
Proof.
  unfold step. destruct (pcs (ts s t)) as [|r|b r|r| |] eqn:P.
  - destruct a as [f g| | |c|c|c|k bl]; try discriminate.
    + destruct (sortedb g); [|discriminate]. intros [= <-]; auto.
    + destruct (fr (ts s t)) as [|[f g] q]; [discriminate|]. intros [= <-]; auto.
    + destruct (brand s t c) as [l|]; [|discriminate]. destruct (holds s t l && nodupb l && _) eqn:H; [|discriminate]. intros [= <-].
      apply andb_true_iff in H as [H _]. apply andb_true_iff in H as [_ H]. apply nodupbP in H.
      destruct (in_dec Nat.eq_dec m l) as [L|L]; [|rewrite nexts_out; auto].
      match goal with |- context [fold_left next l ?z] => destruct (nexts_in l z m H L) as (s1 & A & B) end. rewrite B.
      destruct (next_entry s1 m) as [E|E]; rewrite E, A; auto.
    + destruct (cq s c) as [|w0 q0]; [intros [= <-]; auto|]. destruct (cm s c) as [l|]; [|intros [= <-]; auto]. destruct (holds s t l); [|discriminate]. intros [= <-].
      left. unfold push; cbn [ms]. destruct (existsb _ _); auto.
    + destruct (cq s c) as [|w0 q0]; [intros [= <-]; auto|]. destruct (cm s c) as [l|]; [|intros [= <-]; auto]. destruct (holds s t l); [|discriminate]. intros [= <-].
      left. unfold pcT, set_owner, push, sleep; cbn [ms setT]. destruct (existsb _ _); auto.
    + destruct (holds s t (aggregate k) && _); [|discriminate]. destruct (aggregate k) as [|m0 l]; [intros [= <-]; auto|].
      destruct (search s k (entry (ms s m0)) 0) as [[u i]|] eqn:SE.
      * intros [= <-]. cbn [setacc setT ms].
        assert (SG : exists g q, In g k /\ fr (ts s u) = g :: q).
        { revert SE. generalize 0. clear. induction k as [|g k IH]; intros n; cbn [search]; [discriminate|]. destruct (List.find _ _) as [v|] eqn:F.
          - intros [= <- _]. apply find_some in F as [_ F]. unfold top_is in F. destruct (fr (ts s v)) as [|c q]; [discriminate|]. exists g, q. split; [now left|]. f_equal.
            symmetry. now apply geqbP.
          - intro H. destruct (IH _ H) as (g' & q & A & B). exists g', q. split; [now right|auto]. }
        assert (Z : forall z, ms (admit z u m0) = ms z) by (intro z; unfold admit; now destruct (pcs (ts z u))). rewrite Z. cbn [setM ms].
        eqc m m0 N.
        -- rewrite upd_same. cbn [entry]. right; right; right. exists k, bl, u. split; auto. split; auto.
           unfold del, set_owner, push, sleep; cbn [ms setT]. brk.
        -- rewrite upd_other by auto. left. unfold set_owner, push, sleep; cbn [ms setT]. brk.
      * destruct bl; intros [= <-]; auto. left. unfold set_mask, push, sleep; cbn [ms setT]. brk.
  - destruct r as [|j r]; destruct a; try discriminate; [intros [= <-]; auto|].
    destruct (fr (ts s t)) as [|g q]; [discriminate|]. intros [= <-]. unfold enter. destruct (own (ms s j)) as [o|].
    + destruct (o =? t); [left; cbn [deep ownM setM setT ms]; eqc m j N; [now rewrite upd_same|now rewrite upd_other]|].
      destruct (is_accepted s j g) as [i|].
      * left. assert (Z : ms (match mask (ms s j) with Some (w, _) => setacc s w i | None => s end) = ms s) by (destruct (mask (ms s j)) as [[w k]|]; auto; destruct i; auto).
        cbn [deep setM setT ms]. rewrite Z. eqc m j N; [now rewrite upd_same|now rewrite upd_other].
      * cbn [pcT setM setT ms]. eqc m j N; [rewrite upd_same; auto|rewrite upd_other; auto].
    + left. cbn [deep ownM setM setT ms]; eqc m j N; [now rewrite upd_same|now rewrite upd_other].
  - destruct a; discriminate.
  - destruct r as [|j r]; destruct a; try discriminate; [intros [= <-]; auto|]. intros [= <-]. unfold leave.
    set (s1 := setT _ _ _). assert (E1 : forall i, entry (ms s1 i) = entry (ms s i)) by (intro i; subst s1; cbn [setT setM ms]; eqc i j N; [now rewrite upd_same|now rewrite upd_other]). clearbody s1.
    destruct (_ =? 0); [|left; apply E1]. eqc m j N; [|left; rewrite next_ms; auto]. destruct (next_entry s1 j) as [E|E]; rewrite E, E1; auto.
  - destruct a; discriminate.
  - destruct a; try discriminate. intros [= <-]. left. unfold restore, pcT; cbn [setT ms]. destruct (existsb _ _); auto.
Qed.
Print Assumptions C38_entry_order.

Lemma next_hand s m : own (ms (next s m) m) = match sig (ms s m) with w :: _ => Some w | [] => match entry (ms s m) with u :: _ => Some u | [] => None end end.
Proof.
  unfold next. destruct (sig (ms s m)) as [|w r]; [destruct (entry (ms s m)) as [|u q] eqn:E|]; cbn [check setM setT ms]; try now rewrite upd_same.
  unfold admit. destruct (pcs _); cbn [setM deep setT ms]; now rewrite upd_same.
Qed.
(** The next owner of a monitor released by returning or by wait: the thread signalled last, else the one that has queued longest, else nobody. *)
Definition heir (s : st) (m : nat) : option nat := match sig (ms s m) with w :: _ => Some w | [] => match entry (ms s m) with u :: _ => Some u | [] => None end end.
Theorem C38_return s t m r s' : reach s -> pcs (ts s t) = Lea (m :: r) -> step s t Go = Some s' ->
  own (ms s' m) = if dep (ts s t) m =? 1 then heir s m else Some t.
Proof.
  intros R P. apply inv_reach in R as I. unfold step. rewrite P. intros [= <-].
  assert (C : calm (pcs (ts s t))) by (rewrite P; exact Logic.I).
  pose proof (iK s I t) as K. rewrite P in K.
  assert (D : dep (ts s t) m > 0). { rewrite (K m). unfold cnt. cbn [count_occ]. destruct (Nat.eq_dec m m); [lia|congruence]. }
  assert (O : own (ms s m) = Some t). { destruct (iA s I t m D) as [A|A]; auto. exact (False_ind _ (calm_away _ _ C A)). }
  assert (E : rc (ms s m) = dep (ts s t) m). { destruct (iB s I t m O) as [A|A]; auto. exact (False_ind _ (calm_wtp _ _ C A)). }
  unfold leave. rewrite E. replace (pred (dep (ts s t) m) =? 0) with (dep (ts s t) m =? 1) by (destruct (dep (ts s t) m) as [|[|n]]; auto; lia).
  destruct (dep (ts s t) m =? 1).
  - rewrite next_hand. unfold heir. cbn [setT setM ms]. rewrite upd_same. reflexivity.
  - cbn [setT setM ms]. now rewrite upd_same.
Qed.
Print Assumptions C38_return.
Theorem C38_wait s t c s' : reach s -> step s t (Wait c) = Some s' -> exists l, cm s' c = Some l /\ l <> [] /\ cq s' c = cq s c ++ [t] /\ pcs (ts s' t) = Slp /\
  (forall m, In m l -> own (ms s m) = Some t /\ own (ms s' m) = heir s m /\ own (ms s' m) <> Some t) /\ forall m, ~ In m l -> own (ms s' m) = own (ms s m).
Proof.
  intros R. apply inv_reach in R as I. unfold step. destruct (pcs (ts s t)) as [|r|b r|r| |] eqn:P; try (try destruct r; discriminate).
  destruct (brand s t c) as [l|] eqn:B; [|discriminate]. destruct (holds s t l && nodupb l && _) eqn:H; [|discriminate]. intros [= <-].
  apply andb_true_iff in H as [H H3]. apply andb_true_iff in H as [H1 H2]. rewrite holdsP in H1. apply nodupbP in H2.
  assert (C : calm (pcs (ts s t))) by (rewrite P; exact Logic.I).
  assert (NE : l <> []) by (destruct l; [discriminate|congruence]).
  assert (BB : cm s c = Some l \/ cm s c = None) by (unfold brand in B; destruct (cm s c); auto).
  pose proof (inv_wait s t l c I P H1 NE BB) as I0.
  unfold sleep. cbn [setT ms ts cq cm]. fold (slept s t l). set (z := S_ _ _ _ _) in *.
  assert (FQ : forall k s0, cq (fold_left next k s0) = cq s0 /\ cm (fold_left next k s0) = cm s0).
  { induction k as [|a k IH]; intro s0; cbn [fold_left]; auto. destruct (IH (next s0 a)) as [A D]. destruct (next_cq s0 a). split; congruence. }
  destruct (FQ l z) as [Q1 Q2]. rewrite Q1, Q2.
  assert (QZ : In t (cq z c)) by (subst z; cbn [cq]; rewrite upd_same; apply in_app_iff; right; now left).
  assert (G0 : forall m, In m l -> gave z t m). { intros m Hm. destruct (run_own s t m I P (H1 m Hm)) as (A1 & A2 & A3). subst z. unfold gave, slept, away; cbn [ms ts]. rewrite upd_same. cbn [pcs nod rdy]. auto 10. }
  exists l. split; [subst z; cbn [cm]; apply upd_same|]. split; auto. split; [subst z; cbn [cq]; apply upd_same|]. split.
  - pose proof (inv_nexts l z t c I0 H2 QZ G0) as IF. destruct (iG _ IF c t) as [A _]; auto. now rewrite Q1.
  - split.
    + intros m Hm. split; [now destruct (run_own s t m I P (H1 m Hm))|]. destruct (nexts_in l z m H2 Hm) as (s1 & A & D). rewrite D, next_hand, A. subst z; cbn [ms]. split; auto.
      intro E. destruct (sig (ms s m)) as [|w q] eqn:ES.
      * destruct (entry (ms s m)) as [|u q] eqn:EE; [discriminate|]. injection E as ->. destruct (proj1 (iH s I m t)) as [x Z]; [rewrite EE; now left|congruence].
      * injection E as ->. apply (calm_away _ m C). apply (iF s I). rewrite ES; now left.
    + intros m Hm. rewrite nexts_out by auto. reflexivity.
Qed.
Print Assumptions C38_wait.
(** signal makes the longest waiting thread the heir of all the condition's monitors; the signaller keeps them. *)
Theorem C38_signal s t c s' w q : reach s -> cq s c = w :: q -> step s t (Signal c) = Some s' ->
  cq s' c = q /\ (forall m, own (ms s' m) = own (ms s m)) /\ pcs (ts s' t) = Run /\ forall m, In m (nod (ts s w)) -> heir s' m = Some w /\ sig (ms s' m) = w :: sig (ms s m).
Proof.
  intros R Q. apply inv_reach in R as I. unfold step. destruct (pcs (ts s t)) as [|r|b r|r| |] eqn:P; try (try destruct r; discriminate).
  rewrite Q. destruct (iG s I c w) as (G1 & G2 & G3); [rewrite Q; now left|]. rewrite G3. destruct (holds _ _ _); [|discriminate]. intros [= <-].
  unfold push; cbn [cq ms ts]. rewrite upd_same. split; auto. split; [intro m; now destruct (existsb _ _)|]. split; auto. intros m Hm. unfold heir; cbn [ms setT]. destruct (exbP m (nod (ts s w))); [|contradiction]. cbn [sig]. auto.
Qed.
Print Assumptions C38_signal.
(** signal_block runs the longest waiting thread at once; the signaller is first in line. *)
Theorem C38_signal_block s t c s' w q : reach s -> cq s c = w :: q -> step s t (SigBlock c) = Some s' ->
  cq s' c = q /\ pcs (ts s' w) = Res /\ pcs (ts s' t) = Slp /\ forall m, In m (nod (ts s w)) -> own (ms s' m) = Some w /\ heir s' m = Some t.
Proof.
  intros R Q. apply inv_reach in R as I. unfold step. destruct (pcs (ts s t)) as [|r|b r|r| |] eqn:P; try (try destruct r; discriminate).
  rewrite Q. destruct (iG s I c w) as (G1 & G2 & G3); [rewrite Q; now left|]. rewrite G3. destruct (holds _ _ _); [|discriminate]. intros [= <-].
  assert (N : t <> w) by congruence. unfold pcT, set_owner, push, sleep; cbn [cq ms ts setT]. rewrite !upd_same. split; auto. split; auto. rewrite !upd_other by auto. split; [now rewrite upd_same|].
  intros m Hm. unfold heir; cbn [ms setT]. destruct (exbP m (nod (ts s w))); [|contradiction]. cbn [own sig]. split; reflexivity.
Qed.
Print Assumptions C38_signal_block.
(** A thread that comes back from waiting owns its monitors with the recursion counts it had. *)
Theorem C38_resume s t s' m : reach s -> pcs (ts s t) = Res -> step s t Go = Some s' -> In m (nod (ts s t)) ->
  own (ms s' m) = Some t /\ rc (ms s' m) = sav (ts s t) m /\ sav (ts s t) m = count_occ Nat.eq_dec (concat (map snd (fr (ts s t)))) m /\ pcs (ts s' t) = Run /\ fr (ts s' t) = fr (ts s t).
Proof.
  intros R P. apply inv_reach in R as I. unfold step. rewrite P. intros [= <-] Hm.
  destruct (iC s I t m) as [A B]; [split; auto|]. pose proof (iK s I t m) as K. rewrite P in K. cbn beta iota in K.
  assert (O : own (ms s m) = Some t) by (destruct (iA s I t m B) as [[Z _]|Z]; [congruence|auto]).
  unfold restore, pcT; cbn [setT ms ts]. rewrite upd_same. destruct (exbP m (nod (ts s t))); [|contradiction]. cbn [own rc pcs fr]. repeat split; auto. rewrite A, K. reflexivity.
Qed.
Print Assumptions C38_resume.

(** ** External scheduling *)
Lemma find_spec k g : forall n, match find k g n with
  | Some i => exists j, i = n + j /\ nth_error k j = Some g /\ forall h, h < j -> nth_error k h <> Some g
  | None => ~ In g k end.
Proof.
  induction k as [|a k IH]; intro n; cbn [find]; [auto|]. destruct (geqb a g) eqn:E.
  - apply geqbP in E. subst a. exists 0. split; [lia|]. split; [reflexivity|]. intros h H; lia.
  - assert (N : a <> g) by (intro H; apply geqbP in H; congruence). specialize (IH (S n)). destruct (find k g (S n)) as [i|].
    + destruct IH as (j & -> & A & B). exists (S j). split; [lia|]. split; auto. intros [|h] H; cbn [nth_error]; [congruence|]. apply B; lia.
    + intros [H|H]; auto.
Qed.
(** While a thread waits in waitfor, a call whose first monitor is the awaited one gets in iff it is accepted, and then the waiter
    learns the first matching clause; otherwise the caller queues. *)
Theorem C40_first s t m r q f g w k s' : reach s -> mask (ms s m) = Some (w, k) -> pcs (ts s t) = Ent (m :: r) -> fr (ts s t) = (f, m :: g) :: q -> step s t Go = Some s' ->
  (In (f, m :: g) k -> own (ms s' m) = Some t /\ mask (ms s' m) = None /\ pcs (ts s' w) = Slp /\
     exists i, acc (ts s' w) = Some i /\ nth_error k i = Some (f, m :: g) /\ forall h, h < i -> nth_error k h <> Some (f, m :: g)) /\
  (~ In (f, m :: g) k -> own (ms s' m) = Some w /\ mask (ms s' m) = Some (w, k) /\ pcs (ts s' t) = Blk m r).
Proof.
  intros R M P F. apply inv_reach in R as I. unfold step. rewrite P, F. intros [= <-].
  destruct (iE s I m w k M) as [O S]. destruct (iF s I m w S) as (Sw & _). assert (N : w <> t) by congruence.
  unfold enter. rewrite O. apply Nat.eqb_neq in N as N'. rewrite N'. unfold is_accepted. rewrite M. cbn [snd]. rewrite Nat.eqb_refl.
  pose proof (find_spec k (f, m :: g) 0) as FS. destruct (find k (f, m :: g) 0) as [i|].
  - destruct FS as (j & -> & A & B). cbn [plus]. split.
    + intros _. cbn [setacc deep setM setT ms ts]. rewrite upd_same. rewrite (upd_other _ t) by auto. rewrite upd_same. cbn [own mask pcs acc]. split; auto. split; auto. split; auto. exists j; auto.
    + intro H. exfalso. apply H. eapply nth_error_In; eauto.
  - split; [tauto|]. intros _. cbn [pcT setM setT ms ts]. rewrite !upd_same. cbn [own mask pcs]. auto.
Qed.
Print Assumptions C40_first.
(** A thread gets into an awaited monitor only by an accepted call or by a call that locked another monitor first. *)
Theorem C40_admitted s t a s' m w k : reach s -> mask (ms s m) = Some (w, k) -> step s t a = Some s' ->
  own (ms s' m) = Some w /\ mask (ms s' m) = Some (w, k) \/
  exists f g q r, pcs (ts s t) = Ent (m :: r) /\ fr (ts s t) = (f, g) :: q /\ own (ms s' m) = Some t /\ (In (f, g) k \/ hd_error g <> Some m).
Proof.
  intros R M. apply inv_reach in R as I. destruct (iE s I m w k M) as [O S]. destruct (iF s I m w S) as (Sw & _).
  assert (NH : forall i, pcs (ts s t) = Run -> dep (ts s t) i > 0 -> i <> m).
  { intros i P D ->. destruct (run_own s t m I P D) as (A & _). assert (w = t) by congruence. subst; congruence. }
  unfold step. destruct (pcs (ts s t)) as [|r|b r|r| |] eqn:P.
  - destruct a as [f g| | |c|c|c|kk bl]; try discriminate.
    + destruct (sortedb g); [|discriminate]. intros [= <-]; auto.
    + destruct (fr (ts s t)) as [|[f g] q]; [discriminate|]. intros [= <-]; auto.
    + destruct (brand s t c) as [l|]; [|discriminate]. destruct (holds s t l && nodupb l && _) eqn:H; [|discriminate]. intros [= <-].
      apply andb_true_iff in H as [H _]. apply andb_true_iff in H as [H _]. rewrite holdsP in H.
      rewrite nexts_out; [auto|]. intro L. exact (NH m eq_refl (H m L) eq_refl).
    + destruct (cq s c) as [|w0 q0]; [intros [= <-]; auto|]. destruct (cm s c) as [l|]; [|intros [= <-]; auto]. destruct (holds s t l); [|discriminate]. intros [= <-].
      left. unfold push; cbn [ms]. destruct (existsb _ _); auto.
    + destruct (cq s c) as [|w0 q0]; [intros [= <-]; auto|]. destruct (cm s c) as [l|]; [|intros [= <-]; auto]. destruct (holds s t l) eqn:H; [|discriminate]. rewrite holdsP in H. intros [= <-].
      left. unfold pcT, set_owner, push, sleep; cbn [ms setT]. destruct (exbP m l) as [L|L]; auto. exfalso. exact (NH m eq_refl (H m L) eq_refl).
    + destruct (holds s t (aggregate kk) && _) eqn:H; [|discriminate]. apply andb_true_iff in H as [H _]. rewrite holdsP in H. destruct (aggregate kk) as [|m0 l]; [intros [= <-]; auto|].
      assert (Nm : ~ In m (m0 :: l)) by (intro L; exact (NH m eq_refl (H m L) eq_refl)). assert (m <> m0) by (intro; subst; apply Nm; now left).
      destruct (search s kk (entry (ms s m0)) 0) as [[u i]|].
      * intros [= <-]. cbn [setacc setT ms]. assert (Z : forall z, ms (admit z u m0) = ms z) by (intro z; unfold admit; now destruct (pcs (ts z u))). rewrite Z. cbn [setM ms]. rewrite upd_other by auto.
        left. unfold set_owner, push, sleep; cbn [ms setT]. destruct (exbP m (m0 :: l)); [contradiction|auto].
      * destruct bl; intros [= <-]; auto. left. unfold set_mask, push, sleep; cbn [ms setT]. destruct (exbP m (m0 :: l)); [contradiction|auto].
  - destruct r as [|j r]; destruct a; try discriminate; [intros [= <-]; auto|].
    destruct (fr (ts s t)) as [|[f g] q] eqn:F; [discriminate|]. intros [= <-]. destruct (Nat.eq_dec m j) as [E|E].
    + subst j. unfold enter. rewrite O. assert (N : w <> t) by congruence. apply Nat.eqb_neq in N. rewrite N.
      destruct (is_accepted s m (f, g)) as [i|] eqn:A.
      * right. exists f, g, q, r. split; auto. split; auto. split; [cbn [deep setM setT ms]; now rewrite upd_same|].
        unfold is_accepted in A. rewrite M in A. cbn [snd] in A. destruct g as [|m0 g]; [discriminate|]. destruct (Nat.eqb_spec m0 m) as [E|E].
        -- left. pose proof (find_spec k (f, m0 :: g) 0) as FS. destruct (find k (f, m0 :: g) 0); [|discriminate]. destruct FS as (x & _ & B & _). eapply nth_error_In; eauto.
        -- right. cbn [hd_error]. congruence.
      * left. cbn [pcT setM setT ms]. rewrite upd_same. cbn [own mask]. auto.
    + left. unfold enter. destruct (own (ms s j)) as [o|]; [destruct (o =? t); [|destruct (is_accepted s j (f, g)) as [i|]]|]; cbn [deep ownM pcT setM setT ms]; rewrite ?upd_other by auto; auto.
      assert (Z : ms (match mask (ms s j) with Some (w, _) => setacc s w i | None => s end) = ms s) by (destruct (mask (ms s j)) as [[? ?]|]; auto; destruct i; auto). rewrite Z; auto.
  - destruct a; discriminate.
  - destruct r as [|j r]; destruct a; try discriminate; [intros [= <-]; auto|]. intros [= <-].
    assert (m <> j).
    { intros ->. assert (C : calm (pcs (ts s t))) by (rewrite P; exact Logic.I). pose proof (iK s I t j) as K. rewrite P in K. unfold cnt in K. cbn [count_occ] in K. destruct (Nat.eq_dec j j); [|congruence].
      destruct (iA s I t j) as [A|A]; [lia|exact (calm_away _ _ C A)|]. assert (w = t) by congruence. subst. congruence. }
    left. unfold leave. destruct (_ =? 0); [rewrite next_ms by auto|]; cbn [setT setM ms]; rewrite upd_other by auto; auto.
  - destruct a; discriminate.
  - destruct a; try discriminate. intros [= <-]. left. unfold restore, pcT; cbn [setT ms]. destruct (exbP m (nod (ts s t))) as [L|L]; auto. exfalso.
    destruct (iC s I t m) as [_ D]; [split; auto|]. destruct (iA s I t m D) as [[Z _]|Z]; [congruence|]. assert (w = t) by congruence. subst; congruence.
Qed.
Print Assumptions C40_admitted.
(** In a program whose calls lock one monitor each, only accepted calls get in. *)
Theorem C40_single s t a s' m w k : reach s -> (forall f g q, fr (ts s t) = (f, g) :: q -> exists i, g = [i]) -> mask (ms s m) = Some (w, k) -> step s t a = Some s' ->
  own (ms s' m) <> own (ms s m) -> exists c q, fr (ts s t) = c :: q /\ own (ms s' m) = Some t /\ admits k c /\ snd c = [m].
Proof.
  intros R H1 M St NE. apply inv_reach in R as I. destruct (iE s I m w k M) as [O S].
  destruct (C40_admitted _ _ _ _ _ _ _ R M St) as [[A _]|(f & g & q & r & P & F & A & B)]; [congruence|].
  exists (f, g), q. split; auto. split; auto. destruct (H1 f g q F) as [i ->]. cbn [hd_error snd] in *.
  pose proof (iK s I t 0) as K. rewrite P in K. destruct K as [_ (c & p & q' & E)]. rewrite F in E. injection E as _ E _.
  assert (Ei : i = m) by (destruct p as [|x [|y p]]; cbn [app] in E; congruence). subst i. split; auto. destruct B as [B|B]; [exact B|congruence].
Qed.
Print Assumptions C40_single.
Lemma search_spec s k q : forall n, match search s k q n with
  | Some (u, i) => exists j c r, i = n + j /\ nth_error k j = Some c /\ fr (ts s u) = c :: r /\ (exists p1 p2, q = p1 ++ u :: p2 /\ forall v, In v p1 -> hd_error (fr (ts s v)) <> Some c) /\
      forall h c', h < j -> nth_error k h = Some c' -> forall v, In v q -> hd_error (fr (ts s v)) <> Some c'
  | None => forall c v, In c k -> In v q -> hd_error (fr (ts s v)) <> Some c end.
Proof.
  assert (T : forall g v, top_is s g v = true <-> hd_error (fr (ts s v)) = Some g).
  { intros g v. unfold top_is. destruct (fr (ts s v)); cbn [hd_error]; [split; discriminate|]. rewrite geqbP. split; congruence. }
  assert (FN : forall g l, List.find (top_is s g) l = None -> forall v, In v l -> hd_error (fr (ts s v)) <> Some g).
  { intros g l F v V H. apply T in H. pose proof (find_none _ _ F v V). congruence. }
  induction k as [|g k IH]; intro n; cbn [search]; [intros c v []|]. destruct (List.find (top_is s g) q) as [u|] eqn:F.
  - assert (U : hd_error (fr (ts s u)) = Some g) by (apply T; now apply find_some in F). destruct (fr (ts s u)) as [|c r] eqn:FU; [discriminate|]. injection U as ->.
    exists 0, g, r. split; [lia|]. split; auto. split; auto. split; [|intros h c' H; lia].
    clear -F FN. revert F. induction q as [|a q IH]; cbn [List.find]; [discriminate|]. destruct (top_is s g a) eqn:E.
    + intros [= ->]. exists [], q. split; auto.
    + intro F. destruct (IH F) as (p1 & p2 & -> & A). exists (a :: p1), p2. split; auto. intros v [V|V]; auto. subst v. intro H. pose proof (FN g [a]) as Z. cbn [List.find] in Z. rewrite E in Z. exact (Z eq_refl a (or_introl eq_refl) H).
  - specialize (IH (S n)). destruct (search s k q (S n)) as [[u i]|].
    + destruct IH as (j & c & r & -> & A & B & D & E). exists (S j), c, r. split; [lia|]. split; auto. split; auto. split; auto.
      intros [|h] c' H; cbn [nth_error]; [intros [= <-]; now apply FN|]. intro N. apply (E h); auto. lia.
    + intros c v [C|C] V; [subst; now apply (FN c q)|now apply IH].
Qed.
(** waitfor with callers already queued at its first monitor: the earliest clause that has a caller is taken, its longest waiting caller runs,
    and the waiting thread is next after it. With none, a non-blocking waitfor does nothing and a blocking one accepts exactly its clauses. *)
Theorem C40_waitfor s t k b s' m0 l : reach s -> aggregate k = m0 :: l -> step s t (Waitfor k b) = Some s' ->
  (exists u i c r q p1 p2, nth_error k i = Some c /\ fr (ts s u) = c :: r /\ pcs (ts s u) = Blk m0 q /\ pcs (ts s' u) = Ent q /\
     entry (ms s m0) = p1 ++ u :: p2 /\ (forall v, In v p1 -> hd_error (fr (ts s v)) <> Some c) /\
     (forall h c', h < i -> nth_error k h = Some c' -> forall v, In v (entry (ms s m0)) -> hd_error (fr (ts s v)) <> Some c') /\
     acc (ts s' t) = Some i /\ pcs (ts s' t) = Slp /\ forall m, In m (m0 :: l) -> own (ms s' m) = Some u /\ heir s' m = Some t) \/
  (forall c v, In c k -> In v (entry (ms s m0)) -> hd_error (fr (ts s v)) <> Some c) /\
  if b then pcs (ts s' t) = Slp /\ forall m, In m (m0 :: l) -> own (ms s' m) = Some t /\ mask (ms s' m) = Some (t, k) /\ heir s' m = Some t else s' = s.
Proof.
  intros R A. apply inv_reach in R as I. unfold step. destruct (pcs (ts s t)) as [|r|b' r|r| |] eqn:P; try (try destruct r; discriminate).
  rewrite A. cbv beta iota zeta. assert (HL : In m0 (m0 :: l)) by now left. set (L := m0 :: l) in *. clearbody L. destruct (holds s t L && _) eqn:H; [|discriminate]. apply andb_true_iff in H as [H _]. rewrite holdsP in H.
  pose proof (search_spec s k (entry (ms s m0)) 0) as SS. destruct (search s k (entry (ms s m0)) 0) as [[u i]|].
  - intros [= <-]. destruct SS as (j & c & r & -> & B1 & B2 & (p1 & p2 & B3 & B4) & B5). cbn [plus].
    assert (HU : In u (entry (ms s m0))) by (rewrite B3; apply in_app_iff; right; now left). destruct (proj1 (iH s I m0 u) HU) as [q Pu].
    assert (N : u <> t) by congruence.
    left. exists u, j, c, r, q, p1, p2. split; auto. split; auto. split; auto.
    unfold admit, set_owner, push, sleep, setM; cbn [ts ms setT]. rewrite (upd_other (ts s) t _ u) by auto. rewrite Pu.
    cbn [deep setT ts ms setacc]. rewrite !upd_same. rewrite (upd_other _ t) by auto. rewrite upd_same. cbn [pcs].
    split; auto. split; auto. split; auto. split; auto. split; auto. rewrite (upd_other _ u) by auto. rewrite upd_same. split; auto.
    intros m Hm. unfold heir; cbn [ms ts setT setacc deep]. destruct (Nat.eq_dec m m0) as [->|Nm].
    + rewrite upd_same. cbn [own sig]. destruct (exbP m0 L); [|contradiction]. cbn [own sig]. split; reflexivity.
    + rewrite upd_other by auto. destruct (exbP m L); [|contradiction]. cbn [own sig]. split; reflexivity.
  - intro St. right. split; auto. destruct b; [|congruence]. injection St as <-. unfold set_mask, push, sleep; cbn [ts ms setT]. rewrite upd_same. split; auto.
    intros m Hm. unfold heir; cbn [ms]. destruct (exbP m L); [|contradiction]. cbn [own mask sig]. split; [|auto]. now destruct (run_own s t m I P (H m Hm)).
Qed.
Print Assumptions C40_waitfor.

(** running a list of steps *)
Fixpoint go (s : st) (l : list (nat * act)) : option st := match l with [] => Some s | (t, a) :: r => match step s t a with Some s' => go s' r | None => None end end.
Lemma go_reach l : forall s s', reach s -> go s l = Some s' -> reach s'.
Proof. induction l as [|[t a] l IH]; cbn [go]; intros s s' R; [congruence|]. destruct (step s t a) eqn:E; [|discriminate]. apply IH. econstructor; eauto. Qed.
Definition run (l : list (nat * act)) : st := match go init l with Some s => s | None => init end.
Lemma run_reach l : reach (run l).
Proof. unfold run. destruct (go init l) eqn:E; [|constructor]. eapply go_reach; [constructor|exact E]. Qed.
Definition enters (t f : nat) (g : list nat) : list (nat * act) := (t, Call f g) :: map (fun _ => (t, Go)) g ++ [(t, Go)].
Definition leaves (t : nat) (n : nat) : list (nat * act) := (t, Ret) :: repeat (t, Go) (S n).

(** A call that is not accepted gets into an awaited monitor (line 782 compares pointers). *)
Theorem C40_multi_refuted : exists s t s' m w k f g q, reach s /\ mask (ms s m) = Some (w, k) /\ fr (ts s t) = (f, g) :: q /\ In m g /\ ~ admits k (f, g) /\
  step s t Go = Some s' /\ own (ms s' m) = Some t.
Proof.
  set (l := enters 0 9 [2] ++ [(0, Waitfor [(5, [2])] true); (1, Call 7 [1; 2]); (1, Go)]).
  exists (run l), 1, (run (l ++ [(1, Go)])), 2, 0, [(5, [2])], 7, [1; 2], []. split; [apply run_reach|].
  do 3 (split; [vm_compute; auto|]). split; [unfold admits; cbn [In]; intros [H|[]]; discriminate|]. split; vm_compute; reflexivity.
Qed.
Print Assumptions C40_multi_refuted.
(** A caller that is accepted and already queued is not noticed unless it is queued at the first of the monitors waited for. *)
Theorem C40_queued_refuted : exists s t s' k v c q, reach s /\ step s t (Waitfor k false) = Some s' /\ s' = s /\ In c k /\ fr (ts s v) = c :: q /\
  exists m r, pcs (ts s v) = Blk m r /\ In m (aggregate k) /\ own (ms s m) = Some t.
Proof.
  set (l := enters 0 9 [1; 2] ++ [(1, Call 6 [2]); (1, Go)]).
  exists (run l), 0, (run l), [(5, [1]); (6, [2])], 1, (6, [2]), []. split; [apply run_reach|]. split; [vm_compute; reflexivity|]. split; auto.
  split; [right; left; reflexivity|]. split; [vm_compute; reflexivity|]. exists 2, []. repeat split; vm_compute; auto.
Qed.
Print Assumptions C40_queued_refuted.

(** ** C66: a thread in waitfor resumes when the accepted call is over *)
Lemma next_one s m w r : sig (ms s m) = w :: r -> nod (ts s w) = [m] -> pcs (ts (next s m) w) = Res.
Proof. intros E N. unfold next. rewrite E. unfold check; cbn [setM setT ts]. rewrite upd_same. cbn [pcs]. rewrite N. cbn [forallb existsb]. now rewrite Nat.eqb_refl. Qed.
(** With one monitor: when the thread inside returns from its outermost call, the waiting thread resumes, before any caller. *)
Theorem C66_single s t m r w q s' : reach s -> pcs (ts s t) = Lea (m :: r) -> dep (ts s t) m = 1 -> sig (ms s m) = w :: q -> nod (ts s w) = [m] -> step s t Go = Some s' ->
  pcs (ts s' w) = Res /\ own (ms s' m) = Some w.
Proof.
  intros R P D S N St. split.
  - apply inv_reach in R as I. unfold step in St. rewrite P in St. injection St as <-.
    assert (C : calm (pcs (ts s t))) by (rewrite P; exact Logic.I).
    assert (O : own (ms s m) = Some t). { destruct (iA s I t m) as [A|A]; [lia|exact (False_ind _ (calm_away _ _ C A))|auto]. }
    assert (E : rc (ms s m) = 1). { destruct (iB s I t m O) as [A|A]; [lia|]. exact (False_ind _ (calm_wtp _ _ C A)). }
    assert (NE : w <> t). { intros ->. apply (calm_away _ m C). apply (iF s I). rewrite S; now left. }
    unfold leave. rewrite E. cbn [pred Nat.eqb]. apply next_one with q; cbn [setT setM ms ts]; [rewrite upd_same; exact S|rewrite upd_other by auto; exact N].
  - rewrite (C38_return _ _ _ _ _ R P St), D. cbn [Nat.eqb]. unfold heir. now rewrite S.
Qed.
Print Assumptions C66_single.
Definition idle (s : st) (t : nat) : Prop := pcs (ts s t) = Run /\ fr (ts s t) = [].
(** A waitfor whose clauses name different monitors: the accepted call is over, nobody else is active, the waiting thread sleeps on. *)
Theorem C66_mixed_refuted : exists s w i, reach s /\ pcs (ts s w) = Slp /\ acc (ts s w) = Some i /\ forall t, t <> w -> idle s t.
Proof.
  set (l := enters 0 9 [1; 2] ++ [(0, Waitfor [(5, [1]); (6, [1; 2])] true)] ++ enters 1 5 [1] ++ leaves 1 1).
  exists (run l), 0, 0. split; [apply run_reach|]. split; [vm_compute; reflexivity|]. split; [vm_compute; reflexivity|].
  intros [|[|t]] H; [congruence| |]; split; vm_compute; reflexivity.
Qed.
Print Assumptions C66_mixed_refuted.
(** The same with the accepted caller already queued: a monitor stays owned by a thread that is in no call. *)
Theorem C66_baton_refuted : exists s w i t m, reach s /\ pcs (ts s w) = Slp /\ acc (ts s w) = Some i /\ own (ms s m) = Some t /\ t <> w /\ forall u, u <> w -> idle s u.
Proof.
  set (l := enters 0 9 [1; 2] ++ [(1, Call 5 [1]); (1, Go); (0, Waitfor [(5, [1]); (6, [1; 2])] true); (1, Go)] ++ leaves 1 1).
  exists (run l), 0, 0, 1, 2. split; [apply run_reach|]. do 3 (split; [vm_compute; reflexivity|]). split; [auto|].
  intros [|[|t]] H; [congruence| |]; split; vm_compute; reflexivity.
Qed.
Print Assumptions C66_baton_refuted.
(** Two accepted calls overlap and lock out each other: the first is inside m1 and queued at m2, which the waiting thread holds while it needs m1. *)
Theorem C66_deadlock_refuted : exists s w a m1 m2 r, reach s /\ pcs (ts s w) = Slp /\ own (ms s m2) = Some w /\ In m1 (nod (ts s w)) /\ ~ In m1 (rdy (ts s w)) /\
  own (ms s m1) = Some a /\ pcs (ts s a) = Blk m2 r /\ a <> w /\ (forall c, cq s c = []) /\ forall u, u <> w -> u <> a -> idle s u.
Proof.
  set (l := enters 0 9 [1; 2] ++ [(0, Waitfor [(5, [1; 2]); (6, [2])] true); (1, Call 5 [1; 2]); (1, Go); (2, Call 6 [2]); (2, Go); (1, Go); (2, Go)] ++ leaves 2 1).
  exists (run l), 0, 1, 1, 2, []. split; [apply run_reach|]. split; [vm_compute; reflexivity|]. split; [vm_compute; reflexivity|]. split; [vm_compute; auto|].
  split; [vm_compute; intros [H|[]]; discriminate|]. split; [vm_compute; reflexivity|]. split; [vm_compute; reflexivity|]. split; [auto|]. split; [intro c; vm_compute; reflexivity|].
  intros [|[|[|t]]] H1 H2; [congruence|congruence| |]; split; vm_compute; reflexivity.
Qed.
Print Assumptions C66_deadlock_refuted.

(** Producer and consumer on one monitor and condition: the consumer waits, is signalled, a third thread queues meanwhile; the consumer goes first. *)
Definition demo : list (nat * act) :=
  enters 0 1 [4] ++ [(0, Wait 0)] ++ enters 1 2 [4] ++ [(2, Call 3 [4]); (2, Go); (1, Signal 0)] ++ leaves 1 1.
Example C38_demo : let s := run demo in pcs (ts s 0) = Res /\ own (ms s 4) = Some 0 /\ entry (ms s 4) = [2] /\ pcs (ts s 2) = Blk 4 [] /\
  let s2 := run (demo ++ [(0, Go)] ++ leaves 0 1 ++ [(2, Go)]) in active s2 2 4 /\ idle s2 0 /\ idle s2 1.
Proof. cbn zeta. repeat split; try (vm_compute; reflexivity). exists 3, [4]. split; vm_compute; auto. Qed.
(** wait in a nested call gives up both levels and gets both back. *)
Example C38_nested_demo : let l := enters 0 1 [3; 4] ++ enters 0 2 [3; 4] ++ [(0, Wait 0)] in own (ms (run l) 3) = None /\
  let s := run (l ++ enters 1 2 [3; 4] ++ [(1, SigBlock 0); (0, Go)]) in own (ms s 4) = Some 0 /\ rc (ms s 4) = 2 /\ heir s 4 = Some 1 /\
  pcs (ts (run (l ++ enters 1 2 [3; 4] ++ [(1, SigBlock 0); (0, Go)] ++ leaves 0 2 ++ leaves 0 2)) 1) = Res.
Proof. cbn zeta. repeat split; vm_compute; reflexivity. Qed.
Example C40_demo : let l := enters 0 1 [4] ++ [(0, Waitfor [(5, [4]); (6, [4])] true); (1, Call 7 [4]); (1, Go)] ++ enters 2 6 [4] in
  pcs (ts (run l) 1) = Blk 4 [] /\ active (run l) 2 4 /\ acc (ts (run l) 0) = Some 1 /\ pcs (ts (run (l ++ leaves 2 1)) 0) = Res.
Proof. cbn zeta. repeat split; try (vm_compute; reflexivity). exists 6, [4]. split; vm_compute; auto. Qed.
