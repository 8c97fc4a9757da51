From Coq Require Import List Arith Bool Lia ZifyBool Permutation.
From Verif.ActorQueue Require Import Model Spec Proofs.
From Verif.Actor Require Import Model Spec.
Import ListNotations.

(* -- lists -- *)

Lemma put_inv : forall A (l : list A) n x m y, nth_error (put l n x) m = Some y -> (m = n /\ y = x /\ n < length l) \/ (m <> n /\ nth_error l m = Some y).
Proof.
  intros A l n x m y H. destruct (Nat.eq_dec m n) as [->|D].
  - left. assert (L : n < length l) by (rewrite <- (put_length A l n x); apply nth_error_Some; congruence). rewrite put_same in H by exact L. injection H as <-. auto.
  - right. rewrite put_other in H by congruence. auto.
Qed.

Lemma nth_lt : forall A (l : list A) n x, nth_error l n = Some x -> n < length l.
Proof. intros. apply nth_error_Some. congruence. Qed.

Lemma perm_put : forall A B (f : A -> list B) l n a b, nth_error l n = Some a -> Permutation (f a ++ flat_map f (put l n b)) (f b ++ flat_map f l).
Proof.
  intros A B f. induction l as [|x l IH]; intros [|n] a b H; try discriminate; cbn [put flat_map nth_error] in *.
  - injection H as ->. apply Permutation_app_swap_app.
  - specialize (IH n a b H). rewrite (Permutation_app_swap_app (f a) (f x)), (Permutation_app_swap_app (f b) (f x)). apply Permutation_app_head. exact IH.
Qed.

Lemma map_put : forall A B (f : A -> B) l n x, map f (put l n x) = put (map f l) n (f x).
Proof. induction l as [|a l IH]; destruct n; cbn; intros; try reflexivity. f_equal. apply IH. Qed.

Lemma put_id : forall A (l : list A) n x, nth_error l n = Some x -> put l n x = l.
Proof. induction l as [|a l IH]; destruct n; cbn; intros; try congruence. f_equal. auto. Qed.

Lemma put_app2 : forall A (l r : list A) n x, put (l ++ r) (length l + n) x = l ++ put r n x.
Proof. induction l as [|a l IH]; cbn; intros; [reflexivity|]. f_equal. apply IH. Qed.

Lemma put_app1 : forall A (l r : list A) n x, n < length l -> put (l ++ r) n x = put l n x ++ r.
Proof. induction l as [|a l IH]; destruct n; cbn; intros; try lia; [reflexivity|]. f_equal. apply IH. lia. Qed.

Lemma put_swap : forall A (l : list A) a b x y, a <> b -> nth_error l a = Some x -> nth_error l b = Some y -> Permutation (put (put l a y) b x) l.
Proof.
  intros A l a b x y D HA HB.
  assert (HB' : nth_error (put l a y) b = Some y) by (rewrite put_other by exact D; exact HB).
  pose proof (perm_put A A (fun z => [z]) (put l a y) b y x HB') as P1. pose proof (perm_put A A (fun z => [z]) l a x y HA) as P2.
  assert (FM : forall l : list A, flat_map (fun z => [z]) l = l) by (induction l0; cbn; congruence). rewrite !FM in *.
  apply (Permutation_cons_inv (a := y)). etransitivity; [exact P1|]. cbn [app]. exact P2.
Qed.

(* -- slots -- *)

Definition gap (k : worker) : option nat :=
  match at_ k with SwapD _ _ m _ _ => Some m | SwapE _ m _ => Some m | SwapF _ m _ => Some m | _ => None end.

Section S.
Variable c : conf.
Hypothesis FC : fine c.

Definition inr (w m : nat) : Prop := start (nw c) (nq c) w <= m < start (nw c) (nq c) w + range (nw c) (nq c) w.

Definition pok (sl : list (option nat)) (w : nat) (p : place) : Prop :=
  let r i := i < range (nw c) (nq c) w in
  match p with
  | Top i | Steal i | Ends i => r i
  | Look i q => r i /\ exists x, q = Some x /\ x < nq c
  | Xfer i q | Took i q | Run i q | Busy i q _ | Done i q => r i /\ q < nq c
  | Pick i v j t m => r i /\ v < nw c /\ j < vic_range (nw c) (nq c) v /\ inr w m
  | SwapA i v m => r i /\ v < nq c /\ inr w m
  | SwapB i v m my | SwapC i v m my _ => r i /\ v < nq c /\ inr w m /\ my <> None
  | SwapD i v m my _ => r i /\ v < nq c /\ inr w m /\ my <> None /\ nth_error sl m = Some None
  | SwapE i m my => r i /\ inr w m /\ my <> None /\ nth_error sl m = Some None
  | SwapF i m _ => r i /\ inr w m /\ nth_error sl m = Some None
  | Exited => True
  end.

Record InvS (s : sys) : Prop := {
  s_ls : length (slots s) = nq c;
  s_lw : length (ws s) = nw c;
  s_tok : Permutation (flat_map some (slots s) ++ flat_map in_hand (ws s)) (seq 0 (nq c));
  s_gap : forall n, nth_error (slots s) n = Some None -> exists w k, nth_error (ws s) w = Some k /\ gap k = Some n;
  s_pok : forall w k, nth_error (ws s) w = Some k -> pok (slots s) w (at_ k)
}.

Lemma inr_lt : forall w m, w < nw c -> inr w m -> m < nq c.
Proof. intros w m L H. destruct FC as (H1 & _). pose proof (part_bound (nw c) (nq c) w ltac:(lia) L). unfold inr in H. lia. Qed.

Lemma slot_lt : forall s n q, InvS s -> nth_error (slots s) n = Some (Some q) -> q < nq c.
Proof.
  intros s n q I H. assert (X : In q (seq 0 (nq c))); [|apply in_seq in X; lia].
  apply (Permutation_in q (s_tok s I)). apply in_app_iff. left. apply in_flat_map. exists (Some q). split; [apply nth_error_In in H; exact H|left; reflexivity].
Qed.

Lemma mod_r : forall w i, i mod range (nw c) (nq c) w < range (nw c) (nq c) w.
Proof. intros. apply Nat.mod_upper_bound. destruct FC as (H & _). pose proof (range_pos (nw c) (nq c) w ltac:(lia) ltac:(lia)). lia. Qed.

Lemma own_slot : forall s w k m, InvS s -> nth_error (ws s) w = Some k -> gap k <> Some m -> inr w m -> exists q, nth_error (slots s) m = Some (Some q).
Proof.
  intros s w k m I H G R. pose proof (s_lw s I) as LW. pose proof (nth_lt _ _ _ _ H) as L. rewrite LW in L. pose proof (inr_lt w m L R) as L2.
  destruct (nth_error (slots s) m) as [[q|]|] eqn:E; [eauto| |apply nth_error_None in E; rewrite (s_ls s I) in E; lia].
  exfalso. destruct (s_gap s I m E) as (w' & k' & H' & G').
  assert (R' : inr w' m).
  { pose proof (s_pok s I w' k' H') as P. unfold gap in G'. destruct (at_ k'); try discriminate; injection G' as ->; cbn in P; tauto. }
  assert (w = w') by (eapply part_unique; eassumption). subst w'. rewrite H in H'. injection H' as <-. contradiction.
Qed.

Lemma gap_in_range : forall s w k m, InvS s -> nth_error (ws s) w = Some k -> gap k = Some m -> inr w m /\ nth_error (slots s) m = Some None.
Proof.
  intros s w k m I H G. pose proof (s_pok s I w k H) as P. unfold gap in G. destruct (at_ k); try discriminate; injection G as ->; cbn in P; tauto.
Qed.

Lemma pok_other : forall sl sl' w p, (forall m, gap (W 0 0 p) = Some m -> nth_error sl m = Some None -> nth_error sl' m = Some None) -> pok sl w p -> pok sl' w p.
Proof.
  intros sl sl' w p H P. destruct p; cbn [pok gap at_] in *; auto; intuition; (apply H; [reflexivity|assumption]).
Qed.

(* only the place of one worker changes, and not what is in its hands *)
Lemma S_go : forall s w k n p cu, InvS s -> nth_error (ws s) w = Some k -> in_hand (W cu n p) = in_hand k -> gap (W cu n p) = gap k -> pok (slots s) w p ->
  forall wq cq sh se be en, InvS (Sys (slots s) wq cq (put (ws s) w (W cu n p)) sh se be en).
Proof.
  intros s w k n p cu [] H E1 E2 P wq cq sh se be en. constructor; cbn [slots ws]; auto.
  - rewrite put_length. exact s_lw0.
  - assert (PP : Permutation (flat_map in_hand (put (ws s) w (W cu n p))) (flat_map in_hand (ws s))).
    { pose proof (perm_put _ _ in_hand (ws s) w k (W cu n p) H) as X. rewrite E1 in X. apply Permutation_app_inv_l in X. exact X. }
    rewrite PP. exact s_tok0.
  - intros m G. destruct (s_gap0 m G) as (w' & k' & H' & G'). destruct (Nat.eq_dec w' w) as [->|D].
    + exists w, (W cu n p). rewrite put_same by (eapply nth_lt; eassumption). split; [reflexivity|]. rewrite H in H'. injection H' as <-. congruence.
    + exists w', k'. rewrite put_other by congruence. auto.
  - intros w' k' H'. apply put_inv in H'. destruct H' as [(-> & -> & _)|(D & H')]; [exact P|auto].
Qed.

(* a slot changes too *)
Lemma S_slot : forall s w k n p cu m o x, InvS s -> nth_error (ws s) w = Some k -> nth_error (slots s) m = Some o ->
  Permutation (some o ++ in_hand k) (some x ++ in_hand (W cu n p)) ->
  (forall m', gap (W cu n p) = Some m' <-> gap k = Some m' /\ (m' = m -> x = None) \/ (m' = m /\ x = None)) ->
  (forall w' k', w' <> w -> nth_error (ws s) w' = Some k' -> gap k' <> Some m) ->
  pok (put (slots s) m x) w p ->
  forall wq cq sh se be en, InvS (Sys (put (slots s) m x) wq cq (put (ws s) w (W cu n p)) sh se be en).
Proof.
  intros s w k n p cu m o x [] H HM PM G NO P wq cq sh se be en. constructor; cbn [slots ws].
  - rewrite put_length. exact s_ls0.
  - rewrite put_length. exact s_lw0.
  - pose proof (perm_put _ _ in_hand (ws s) w k (W cu n p) H) as X1. pose proof (perm_put _ _ some (slots s) m o x HM) as X2.
    rewrite <- s_tok0. apply (Permutation_app_inv_l (some o ++ in_hand k)).
    transitivity ((some o ++ flat_map some (put (slots s) m x)) ++ (in_hand k ++ flat_map in_hand (put (ws s) w (W cu n p)))).
    { rewrite <- !app_assoc. apply Permutation_app_head. apply Permutation_app_swap_app. }
    rewrite X1, X2. rewrite PM. rewrite <- !app_assoc. apply Permutation_app_head. apply Permutation_app_swap_app.
  - intros m' N. destruct (Nat.eq_dec m' m) as [->|D].
    + rewrite put_same in N by (eapply nth_lt; eassumption). injection N as ->. exists w, (W cu n p). rewrite put_same by (eapply nth_lt; eassumption). split; [reflexivity|]. apply G. auto.
    + rewrite put_other in N by congruence. destruct (s_gap0 m' N) as (w' & k' & H' & G'). destruct (Nat.eq_dec w' w) as [->|D'].
      * exists w, (W cu n p). rewrite put_same by (eapply nth_lt; eassumption). split; [reflexivity|]. rewrite H in H'. injection H' as <-. apply G. left. split; [exact G'|congruence].
      * exists w', k'. rewrite put_other by congruence. auto.
  - intros w' k' H'. apply put_inv in H'. destruct H' as [(-> & -> & _)|(D & H')]; [exact P|].
    apply (pok_other (slots s)); [|auto]. intros m' G' N. rewrite put_other; [exact N|]. intros ->. apply (NO w' k' D H'). exact G'.
Qed.

Lemma S_init : InvS (init c).
Proof.
  constructor; cbn [init slots ws].
  - rewrite map_length, seq_length. reflexivity.
  - rewrite map_length, seq_length. reflexivity.
  - assert (E1 : forall l, flat_map some (map (@Some nat) l) = l) by (induction l; cbn; congruence).
    assert (E2 : forall l, flat_map in_hand (map (fun i => W (nq c + i) 0 (Top 0)) l) = []) by (induction l; cbn; auto).
    rewrite E1, E2, app_nil_r. reflexivity.
  - intros n H. apply nth_error_In, in_map_iff in H. destruct H as (x & E & _). discriminate.
  - intros w k H. apply nth_error_In, in_map_iff in H. destruct H as (x & <- & _). cbn. destruct FC as (H & _). pose proof (range_pos (nw c) (nq c) w ltac:(lia) ltac:(lia)). lia.
Qed.

Lemma oeqb_ok : forall a b, oeqb a b = true <-> a = b.
Proof.
  intros [a|] [b|]; cbn; split; intros H; try discriminate; try reflexivity; [f_equal; apply Nat.eqb_eq; exact H|injection H as ->; apply Nat.eqb_refl].
Qed.

(* A worker in a place that holds no slot is not in a gap. *)
Lemma S_work : forall s w b x y z o, InvS s -> work c s w b x y z = Some o ->
  match o with Ok s' => InvS s' | Undefined => exists k i q, nth_error (ws s) w = Some k /\ (at_ k = Xfer i q \/ at_ k = Took i q \/ at_ k = Run i q \/ at_ k = Done i q \/ at_ k = Ends i) | Assert => False end.
Proof.
  intros s w b x y z o I H. unfold work in H. destruct (nth_error (ws s) w) as [k|] eqn:K; [|discriminate].
  pose proof (s_pok s I w k K) as P. pose proof (nth_lt _ _ _ _ K) as LW. rewrite (s_lw s I) in LW.
  assert (NX : forall i, pok (slots s) w (next c w i)) by (intros i; cbn; apply mod_r).
  assert (GO : forall n p cu, in_hand (W cu n p) = in_hand k -> gap (W cu n p) = gap k -> pok (slots s) w p ->
    forall wq cq sh se be en, InvS (Sys (slots s) wq cq (put (ws s) w (W cu n p)) sh se be en)) by (intros; eapply S_go; eassumption).
  assert (SL : forall m, m < nq c -> exists q, nth_error (slots s) m = Some q).
  { intros m L. destruct (nth_error (slots s) m) eqn:E; [eauto|]. apply nth_error_None in E. rewrite (s_ls s I) in E. lia. }
  assert (NG : forall m w' k', inr w m -> w' <> w -> nth_error (ws s) w' = Some k' -> gap k' <> Some m).
  { intros m w' k' R D H' G. destruct (gap_in_range s w' k' m I H' G) as [R' _]. apply D. eapply part_unique; eassumption. }
  assert (NN : forall m q w' k', nth_error (slots s) m = Some (Some q) -> w' <> w -> nth_error (ws s) w' = Some k' -> gap k' <> Some m).
  { intros m q w' k' E D H' G. destruct (gap_in_range s w' k' m I H' G) as [_ E']. congruence. }
  pose proof (own_slot s w k) as OS. unfold gap, in_hand in GO, OS. destruct (at_ k) eqn:A; cbn [pok] in P; cbn [some] in GO.
  - (* Top *) destruct (own_slot s w k (i + begin_ c w) I K) as (q & E); [unfold gap; rewrite A; discriminate|unfold inr, begin_; lia|].
    rewrite E in H. injection H as <-. apply GO; try reflexivity. cbn. split; [exact P|]. exists q. split; [reflexivity|]. eapply slot_lt; eassumption.
  - (* Look *) destruct P as (Pi & q' & -> & Lq). destruct b.
    + destruct (S (ec k) <? threshold c w); injection H as <-; (apply GO; [reflexivity|reflexivity|]); [apply NX|cbn; auto].
    + injection H as <-. apply GO; try reflexivity. cbn. auto.
  - (* Xfer *) unfold transfer in H. destruct (nth_error (wqs s) q) as [wx|]; [|injection H as <-; exists k, i, q; auto].
    destruct (busy wx); [injection H as <-; apply GO; try reflexivity; exact P|].
    destruct (nth_error (cqs s) (cqueue wx)); [|injection H as <-; exists k, i, q; auto]. injection H as <-. apply GO; try reflexivity; exact P.
  - (* Took *) destruct (nth_error (cqs s) (cur k)) as [bb|]; [|injection H as <-; exists k, i, q; auto]. destruct P as [P1 P2].
    destruct (cq_empty bb).
    + destruct (nosteal c); [injection H as <-; apply GO; destruct (shut s); try reflexivity; apply NX|].
      destruct (S (ec k) <? threshold c w); injection H as <-; [apply GO; try reflexivity; apply NX|]. apply GO; destruct (shut s); try reflexivity; exact P1.
    + injection H as <-. apply GO; try reflexivity. cbn. auto.
  - (* Steal *) destruct (Nat.ltb_spec x (nw c)); [|discriminate]. destruct (Nat.ltb_spec y (vic_range (nw c) (nq c) x)); [|discriminate].
    destruct (Nat.ltb_spec z (range (nw c) (nq c) w)); [|discriminate]. injection H as <-. apply GO; try reflexivity. cbn. unfold inr, begin_. repeat split; auto; lia.
  - (* Pick *) destruct P as (Pi & Pv & Pj & Pm).
    assert (Q : j + vic_start (nw c) (nq c) v < nq c).
    { destruct FC as (F1 & _). rewrite <- start_eq by lia. pose proof (part_bound (nw c) (nq c) v ltac:(lia) Pv). rewrite <- range_eq in Pj. lia. }
    assert (J : (j + 1) mod vic_range (nw c) (nq c) v < vic_range (nw c) (nq c) v) by (apply Nat.mod_upper_bound; lia).
    destruct (t <? vic_range (nw c) (nq c) v); [|injection H as <-; apply GO; try reflexivity; apply NX].
    destruct (SL _ Q) as ([q|] & E); rewrite E in H.
    + destruct b; injection H as <-; (apply GO; [reflexivity|reflexivity|]); cbn; auto.
    + injection H as <-. apply GO; try reflexivity. cbn. auto.
  - (* SwapA *) destruct P as (Pi & Pv & Pm). destruct (OS m I K ltac:(discriminate) Pm) as (q & E). rewrite E in H. injection H as <-. apply GO; try reflexivity. cbn. repeat split; auto; try apply Pm. discriminate.
  - (* SwapB *) destruct P as (Pi & Pv & Pm & My). destruct (SL _ Pv) as ([q|] & E); rewrite E in H; injection H as <-; (apply GO; [reflexivity|reflexivity|]); [cbn; auto|apply NX].
  - (* SwapC *) destruct P as (Pi & Pv & Pm & My). destruct (OS m I K ltac:(discriminate) Pm) as (q & E). rewrite E in H.
    destruct (oeqb (Some q) my) eqn:Q; injection H as <-; [|apply GO; try reflexivity; apply NX]. apply oeqb_ok in Q. subst my.
    unfold go, set_slot, with_ws. cbn [slots wqs cqs ws shut sent begun ended]. eapply S_slot; [exact I|exact K|exact E| | | |].
    + unfold in_hand. rewrite A. cbn. reflexivity.
    + intros m'. unfold gap. rewrite A. cbn. split; [intros [= <-]; auto|intros [[? _]|[-> _]]; [discriminate|reflexivity]].
    + intros w' k' D H'. eapply NG; eassumption.
    + cbn. repeat split; auto; try apply Pm. apply put_same. eapply nth_lt. eassumption.
  - (* SwapD *) destruct P as (Pi & Pv & Pm & My & NM). destruct (SL _ Pv) as (q & E). rewrite E in H. destruct my as [my|]; [|congruence].
    destruct (oeqb q (Some o0)) eqn:Q; injection H as <-.
    + apply oeqb_ok in Q. subst q. assert (D : m <> v) by congruence.
      unfold go, set_slot, with_ws. cbn [slots wqs cqs ws shut sent begun ended]. eapply S_slot; [exact I|exact K|exact E| | | |].
      * unfold in_hand. rewrite A. cbn. apply perm_swap.
      * intros m'. unfold gap. rewrite A. cbn. split; [intros [= <-]; left; split; [reflexivity|congruence]|intros [[? _]|[_ ?]]; [assumption|discriminate]].
      * intros w' k' D' H'. eapply NN; eassumption.
      * cbn. repeat split; auto; try apply Pm. rewrite put_other by congruence. exact NM.
    + apply GO; try reflexivity. cbn. auto.
  - (* SwapE *) destruct P as (Pi & Pm & My & NM). rewrite NM in H. injection H as <-. destruct my as [my|]; [|congruence].
    unfold go, set_slot, with_ws. cbn [slots wqs cqs ws shut sent begun ended]. eapply S_slot; [exact I|exact K|exact NM| | | |].
    + unfold in_hand. rewrite A. cbn. reflexivity.
    + intros m'. unfold gap. rewrite A. cbn. split; [discriminate|intros [[[= ->] X]|[_ X]]; [specialize (X eq_refl); discriminate|discriminate]].
    + intros w' k' D H'. eapply NG; eassumption.
    + cbn. apply mod_r.
  - (* SwapF *) destruct P as (Pi & Pm & NM). injection H as <-.
    unfold go, set_slot, with_ws. cbn [slots wqs cqs ws shut sent begun ended]. eapply S_slot; [exact I|exact K|exact NM| | | |].
    + unfold in_hand. rewrite A. cbn. reflexivity.
    + intros m'. unfold gap. rewrite A. cbn. split; [discriminate|intros [[[= ->] X]|[_ X]]; [specialize (X eq_refl); discriminate|discriminate]].
    + intros w' k' D H'. eapply NG; eassumption.
    + cbn. apply mod_r.
  - (* Run *) destruct (nth_error (cqs s) (cur k)) as [bb|]; [|injection H as <-; exists k, i, q; auto]. destruct P as [P1 P2].
    destruct (cq_empty bb); [injection H as <-; apply GO; try reflexivity; cbn; auto|].
    destruct (cq_remove bb); injection H as <-; [exact I|exists k, i, q; auto|]. cbn. apply GO; try reflexivity. cbn. auto.
  - (* Busy *) injection H as <-. cbn. apply GO; try reflexivity. exact P.
  - (* Done *) destruct (nth_error (wqs s) q); injection H as <-; [apply GO; try reflexivity; cbn; tauto|exists k, i, q; auto 6].
  - (* Ends *) destruct (shut s); [injection H as <-; apply GO; reflexivity|]. destruct (nth_error (cqs s) (cur k)); injection H as <-; [apply GO; try reflexivity; apply NX|exists k, i, 0; auto 6].
  - discriminate.
Qed.

(* -- queues -- *)

Lemma holds_content : forall b l d, holds b l d -> content b = l.
Proof.
  intros b l d []. unfold content. rewrite h_cnt.
  assert (X : forall (l : list req) (u : list (option req)), (forall i, i < length l -> nth_error u i = option_map Some (nth_error l i)) -> flat_map some (firstn (length l) u) = l).
  { induction l0 as [|x l0 IH]; intros u H; [reflexivity|]. destruct u as [|y u]; [specialize (H 0 ltac:(cbn; lia)); discriminate|].
    pose proof (H 0 ltac:(cbn; lia)) as H0. cbn in H0. injection H0 as ->. cbn [firstn length flat_map some app]. f_equal. apply IH.
    intros i Hi. exact (H (S i) ltac:(cbn; lia)). }
  apply X. intros i Hi. rewrite <- (h_val i Hi). generalize (buf b), (index b). intros u n. revert u. induction n as [|n IH]; intros u; [reflexivity|]. destruct u; [destruct i; reflexivity|]. cbn [skipn plus nth_error]. apply IH.
Qed.

Definition cn (s : sys) (n : nat) : list req := match nth_error (cqs s) n with Some b => content b | None => [] end.
Definition good (s : sys) (n : nat) (d : bool) : Prop := exists b, nth_error (cqs s) n = Some b /\ holds b (content b) d.

Definition own (s : sys) (k : worker) : option nat :=
  match at_ k with
  | Run _ q | Busy _ q _ | Done _ q => Some q
  | Took _ q => match cn s (cur k) with [] => None | _ => Some q end
  | _ => None
  end.

Definition adr (q : nat) (r : req) : bool := tk c (rcv r) =? q.
Definition owners (s : sys) : list nat := map cqueue (wqs s) ++ map cur (ws s).

Record InvQ (s : sys) : Prop := {
  q_lq : length (wqs s) = nq c;
  q_lc : length (cqs s) = nq c + nw c;
  q_lw : length (ws s) = nw c;
  q_nd : NoDup (owners s);
  q_cq : forall q x, nth_error (wqs s) q = Some x -> good s (cqueue x) false /\ Forall (fun r => adr q r = true) (cn s (cqueue x));
  q_ws : forall w k, nth_error (ws s) w = Some k -> (exists d, good s (cur k) d) /\
           match own s k with None => cn s (cur k) = [] | Some q => Forall (fun r => adr q r = true) (cn s (cur k)) /\ exists x, nth_error (wqs s) q = Some x /\ busy x = true end /\
           match at_ k with Done _ _ => cn s (cur k) = [] | Busy _ q r => adr q r = true | _ => True end;
  q_un : forall w w' k k' q, nth_error (ws s) w = Some k -> nth_error (ws s) w' = Some k' -> own s k = Some q -> own s k' = Some q -> w = w';
  q_bs : forall q x, nth_error (wqs s) q = Some x -> busy x = true -> exists w k, nth_error (ws s) w = Some k /\ own s k = Some q;
  q_hi : forall q x, nth_error (wqs s) q = Some x -> exists h e,
           filter (adr q) (sent s) = filter (adr q) (begun s) ++ h ++ cn s (cqueue x) /\ filter (adr q) (begun s) = filter (adr q) (ended s) ++ e /\
           (busy x = false -> h = [] /\ e = []) /\ (forall w k, nth_error (ws s) w = Some k -> own s k = Some q -> h = cn s (cur k) /\ e = receiving k)
}.

Lemma Q_init : InvQ (init c).
Proof.
  destruct FC as (F1 & F2 & F3).
  assert (CN : forall n, cn (init c) n = []).
  { intros n. unfold cn. destruct (nth_error (cqs (init c)) n) as [b|] eqn:E; [|reflexivity]. apply nth_error_In in E. apply repeat_spec in E. subst b. reflexivity. }
  assert (GD : forall n, n < nq c + nw c -> good (init c) n false).
  { intros n L. exists (cq_new (bufsize c)). split.
    - cbn [init cqs]. rewrite (nth_error_nth' _ (cq_new (bufsize c))) by (rewrite repeat_length; exact L). rewrite nth_repeat. reflexivity.
    - exact (new_holds (bufsize c) F2). }
  assert (WS : forall w k, nth_error (ws (init c)) w = Some k -> w < nw c /\ k = W (nq c + w) 0 (Top 0)).
  { intros w k H. cbn [init ws] in H. pose proof (nth_lt _ _ _ _ H) as L. rewrite map_length, seq_length in L. split; [exact L|].
    rewrite (map_nth_error _ _ _ (d := w)) in H; [congruence|]. rewrite (nth_error_nth' _ 0) by (rewrite seq_length; exact L). rewrite seq_nth by exact L. reflexivity. }
  assert (WQ : forall q x, nth_error (wqs (init c)) q = Some x -> q < nq c /\ x = WQ q false).
  { intros q x H. cbn [init wqs] in H. pose proof (nth_lt _ _ _ _ H) as L. rewrite map_length, seq_length in L. split; [exact L|].
    rewrite (map_nth_error _ _ _ (d := q)) in H; [congruence|]. rewrite (nth_error_nth' _ 0) by (rewrite seq_length; exact L). rewrite seq_nth by exact L. reflexivity. }
  constructor.
  - cbn. rewrite map_length, seq_length. reflexivity.
  - cbn. rewrite repeat_length. reflexivity.
  - cbn. rewrite map_length, seq_length. reflexivity.
  - unfold owners. cbn [init wqs ws]. rewrite !map_map. cbn [cqueue cur]. rewrite map_id. 
    assert (X : forall n m, map (fun x => nq c + x) (seq m n) = seq (nq c + m) n) by (induction n as [|n IH]; intros m; cbn; [reflexivity|]; rewrite IH; do 2 f_equal; lia).
    rewrite X, Nat.add_0_r, <- seq_app. apply seq_NoDup.
  - intros q x H. destruct (WQ q x H) as [L ->]. cbn [cqueue]. rewrite CN. split; [apply GD; lia|constructor].
  - intros w k H. destruct (WS w k H) as [L ->]. cbn. rewrite CN. split; [exists false; apply GD; lia|auto].
  - intros w w' k k' q H H' O. destruct (WS w k H) as [_ ->]. discriminate.
  - intros q x H B. destruct (WQ q x H) as [_ ->]. discriminate.
  - intros q x H. exists [], []. cbn. rewrite CN. repeat split; destruct (WS _ _ H0) as [_ ->]; discriminate.
Qed.

Lemma nd_cq_ws : forall s q x w k, InvQ s -> nth_error (wqs s) q = Some x -> nth_error (ws s) w = Some k -> cqueue x <> cur k.
Proof.
  intros s q x w k I H H' E. pose proof (q_nd s I) as N. unfold owners in N.
  assert (A : nth_error (map cqueue (wqs s) ++ map cur (ws s)) q = Some (cqueue x)) by (rewrite nth_error_app1; [apply map_nth_error; exact H|rewrite map_length; eapply nth_lt; eassumption]).
  assert (B : nth_error (map cqueue (wqs s) ++ map cur (ws s)) (length (map cqueue (wqs s)) + w) = Some (cur k)).
  { rewrite nth_error_app2 by lia. replace (_ + w - _) with w by lia. apply map_nth_error. exact H'. }
  pose proof (nth_lt _ _ _ _ H) as L1. rewrite <- (map_length cqueue) in L1.
  assert (q = length (map cqueue (wqs s)) + w); [|lia].
  apply (proj1 (NoDup_nth_error _) N); [|congruence]. eapply nth_lt. exact A.
Qed.

Lemma nd_cq : forall s q q' x x', InvQ s -> nth_error (wqs s) q = Some x -> nth_error (wqs s) q' = Some x' -> cqueue x = cqueue x' -> q = q'.
Proof.
  intros s q q' x x' I H H' E. pose proof (q_nd s I) as N. unfold owners in N.
  assert (A : nth_error (map cqueue (wqs s) ++ map cur (ws s)) q = Some (cqueue x)) by (rewrite nth_error_app1; [apply map_nth_error; exact H|rewrite map_length; eapply nth_lt; eassumption]).
  assert (B : nth_error (map cqueue (wqs s) ++ map cur (ws s)) q' = Some (cqueue x')) by (rewrite nth_error_app1; [apply map_nth_error; exact H'|rewrite map_length; eapply nth_lt; eassumption]).
  apply (proj1 (NoDup_nth_error _) N); [|congruence]. eapply nth_lt. exact A.
Qed.

Lemma nd_ws : forall s w w' k k', InvQ s -> nth_error (ws s) w = Some k -> nth_error (ws s) w' = Some k' -> cur k = cur k' -> w = w'.
Proof.
  intros s w w' k k' I H H' E. pose proof (q_nd s I) as N. unfold owners in N.
  assert (A : forall w k, nth_error (ws s) w = Some k -> nth_error (map cqueue (wqs s) ++ map cur (ws s)) (length (map cqueue (wqs s)) + w) = Some (cur k)).
  { intros v j J. rewrite nth_error_app2 by lia. replace (_ + v - _) with v by lia. apply map_nth_error. exact J. }
  assert (length (map cqueue (wqs s)) + w = length (map cqueue (wqs s)) + w'); [|lia].
  apply (proj1 (NoDup_nth_error _) N); [|rewrite (A _ _ H), (A _ _ H'); congruence]. eapply nth_lt. apply (A _ _ H).
Qed.

(* only the place of one worker changes *)
Lemma Q_go : forall s w k n p, InvQ s -> nth_error (ws s) w = Some k -> own s (W (cur k) n p) = own s k -> receiving (W (cur k) n p) = receiving k ->
  match p with Done _ _ => cn s (cur k) = [] | Busy _ q r => adr q r = true | _ => True end ->
  forall sl sh, InvQ (Sys sl (wqs s) (cqs s) (put (ws s) w (W (cur k) n p)) sh (sent s) (begun s) (ended s)).
Proof.
  intros s w k n p I H EO ER ED sl sh. set (s' := Sys _ _ _ _ _ _ _ _).
  assert (CN : forall m, cn s' m = cn s m) by reflexivity. assert (GD : forall m d, good s' m d = good s m d) by reflexivity. assert (OW : forall k, own s' k = own s k) by reflexivity.
  assert (LW : w < length (ws s)) by (eapply nth_lt; eassumption).
  assert (WS : forall w' k', nth_error (ws s') w' = Some k' -> exists k0, nth_error (ws s) w' = Some k0 /\ cur k' = cur k0 /\ own s k' = own s k0 /\ receiving k' = receiving k0).
  { intros w' k' H'. apply put_inv in H'. destruct H' as [(-> & -> & _)|(_ & H')]; eauto. }
  destruct I. constructor; auto.
  - cbn. rewrite put_length. exact q_lw0.
  - unfold owners, s'. cbn [wqs ws]. rewrite map_put. cbn [cur]. rewrite (put_id _ (map cur (ws s))) by (apply map_nth_error; exact H). exact q_nd0.
  - intros w' k' H'. rewrite CN, OW. destruct (WS w' k' H') as (k0 & H0 & C0 & O0 & R0). rewrite C0, O0. destruct (q_ws0 w' k0 H0) as (A1 & A2 & A3). split; [exact A1|]. split; [exact A2|].
    apply put_inv in H'. destruct H' as [(-> & -> & _)|(_ & H')]; [rewrite <- C0; cbn [cur at_]; exact ED|rewrite H0 in H'; injection H' as <-; exact A3].
  - intros w1 w2 k1 k2 q H1 H2 O1 O2. destruct (WS _ _ H1) as (a & A1 & _ & A2 & _). destruct (WS _ _ H2) as (b & B1 & _ & B2 & _). rewrite OW in O1, O2. apply (q_un0 w1 w2 a b q); congruence.
  - intros q x Hx B. destruct (q_bs0 q x Hx B) as (w' & k' & H' & O'). destruct (Nat.eq_dec w' w) as [->|D].
    + exists w, (W (cur k) n p). cbn [ws s']. split; [apply put_same; exact LW|]. rewrite OW, EO. rewrite H in H'. injection H' as <-. exact O'.
    + exists w', k'. cbn [ws s']. rewrite put_other by congruence. auto.
  - intros q x Hx. destruct (q_hi0 q x Hx) as (h & e & A1 & A2 & A3 & A4). exists h, e. split; [exact A1|]. split; [exact A2|]. split; [exact A3|].
    intros w' k' H' O'. destruct (WS _ _ H') as (k0 & H0 & C0 & O0 & R0). rewrite CN, C0, R0. apply (A4 w' k0 H0). rewrite <- O0. exact O'.
Qed.

Lemma cn_set : forall s n b m, n < length (cqs s) -> cn (set_cq s n b) m = if m =? n then content b else cn s m.
Proof.
  intros s n b m L. unfold cn, set_cq. cbn [cqs]. destruct (Nat.eqb_spec m n) as [->|D]; [rewrite put_same by exact L; reflexivity|rewrite put_other by congruence; reflexivity].
Qed.

Lemma Q_send : forall s r o, InvQ s -> send c s r = o -> exists s', o = Ok s' /\ InvQ s'.
Proof.
  intros s r o I E. unfold send in E. set (q := tk c (rcv r)) in *. destruct FC as (_ & _ & F3). assert (Lq : q < nq c) by apply F3.
  destruct (nth_error (wqs s) q) as [x|] eqn:X; [|apply nth_error_None in X; rewrite (q_lq s I) in X; lia].
  destruct (q_cq s I q x X) as ((b & B & HB) & FA). rewrite B in E.
  destruct (insert_holds b (content b) r HB) as (b' & E' & HB' & _). rewrite E' in E. pose proof (holds_content _ _ _ HB') as CB.
  set (s' := Sys _ _ _ _ _ _ _ _) in E. exists s'. split; [congruence|]. clear E E'.
  assert (LC : cqueue x < length (cqs s)) by (eapply nth_lt; eassumption).
  assert (CN : forall m, cn s' m = if m =? cqueue x then content b ++ [r] else cn s m).
  { intros m. rewrite <- CB. apply (cn_set s (cqueue x) b' m LC). }
  assert (CX : cn s (cqueue x) = content b) by (unfold cn; rewrite B; reflexivity).
  assert (CW : forall w k, nth_error (ws s) w = Some k -> cn s' (cur k) = cn s (cur k)).
  { intros w k H. rewrite CN. pose proof (nd_cq_ws s q x w k I X H). destruct (Nat.eqb_spec (cur k) (cqueue x)); [congruence|reflexivity]. }
  assert (CO : forall q' x', nth_error (wqs s) q' = Some x' -> q' <> q -> cn s' (cqueue x') = cn s (cqueue x')).
  { intros q' x' H D. rewrite CN. destruct (Nat.eqb_spec (cqueue x') (cqueue x)) as [e|]; [|reflexivity]. destruct D. eapply nd_cq; eassumption. }
  assert (GD : forall m d, m <> cqueue x -> good s m d -> good s' m d).
  { intros m d D (y & Y & HY). exists y. split; [|exact HY]. unfold s', set_cq. cbn [cqs]. rewrite put_other by congruence. exact Y. }
  assert (OW : forall w k, nth_error (ws s) w = Some k -> own s' k = own s k).
  { intros w k H. unfold own. rewrite (CW w k H). reflexivity. }
  assert (AQ : adr q r = true) by apply Nat.eqb_refl.
  assert (FS : forall q', filter (adr q') (sent s ++ [r]) = filter (adr q') (sent s) ++ (if q' =? q then [r] else [])).
  { intros q'. rewrite filter_app. cbn [filter]. unfold adr at 2. fold q. rewrite Nat.eqb_sym. destruct (q' =? q); reflexivity. }
  pose proof I as []. constructor; auto.
  - cbn. rewrite put_length. exact q_lc0.
  - intros q' x' H'. destruct (Nat.eq_dec q' q) as [->|D].
    + change (nth_error (wqs s) q = Some x') in H'. rewrite X in H'. injection H' as <-. split.
      * exists b'. split; [unfold s', set_cq; cbn [cqs]; apply put_same; exact LC|]. rewrite CB. exact HB'.
      * rewrite CN, Nat.eqb_refl. apply Forall_app. split; [rewrite <- CX; exact FA|constructor; auto].
    + destruct (q_cq0 q' x' H') as [A1 A2]. split; [|rewrite (CO _ _ H' D); exact A2]. apply GD; [|exact A1]. intros e. apply D. eapply nd_cq; eassumption.
  - intros w k H. rewrite (CW w k H), (OW w k H). destruct (q_ws0 w k H) as ((d & A1) & A2). split; [|exact A2]. exists d. apply GD; [|exact A1]. intros e. eapply nd_cq_ws; [exact I|exact X|exact H|congruence].
  - intros w w' k k' q' H H' O O'. rewrite (OW _ _ H) in O. rewrite (OW _ _ H') in O'. eapply q_un0; eassumption.
  - intros q' x' H' B'. destruct (q_bs0 q' x' H' B') as (w & k & H & O). exists w, k. split; [exact H|]. rewrite (OW _ _ H). exact O.
  - intros q' x' H'. destruct (q_hi0 q' x' H') as (h & e & A1 & A2 & A3 & A4). exists h, e. split; [|split; [exact A2|split; [exact A3|]]].
    + change (sent s') with (sent s ++ [r]). rewrite FS. change (begun s') with (begun s). rewrite A1. destruct (Nat.eqb_spec q' q) as [->|D].
      * change (nth_error (wqs s) q = Some x') in H'. rewrite X in H'. injection H' as <-. rewrite CN, Nat.eqb_refl, <- CX, <- !app_assoc. reflexivity.
      * rewrite (CO _ _ H' D), app_nil_r. reflexivity.
    + intros w k H O. rewrite (OW _ _ H) in O. rewrite (CW _ _ H). apply (A4 w k H O).
Qed.

Lemma filter_adr : forall q q' l, Forall (fun r => adr q r = true) l -> filter (adr q') l = if q' =? q then l else [].
Proof.
  intros q q' l H. induction H as [|r l H _ IH]; cbn [filter]; [destruct (q' =? q); reflexivity|].
  rewrite IH. unfold adr in *. apply Nat.eqb_eq in H. rewrite H. rewrite (Nat.eqb_sym q q'). destruct (q' =? q); reflexivity.
Qed.

(* a worker goes on, its own queue changes *)
Lemma Q_priv : forall s w k n p b' l' d' bs es, InvQ s -> nth_error (ws s) w = Some k -> holds b' l' d' ->
  (own s k = None -> l' = [] /\ bs = [] /\ es = [] /\ receiving (W (cur k) n p) = []) ->
  (forall q, own s k = Some q -> cn s (cur k) = bs ++ l' /\ Forall (fun r => adr q r = true) es /\ receiving k ++ bs = es ++ receiving (W (cur k) n p)) ->
  match p with Run _ q | Busy _ q _ | Done _ q => Some q | Took _ q => match l' with [] => None | _ => Some q end | _ => None end = own s k ->
  match p with Done _ _ => l' = [] | Busy _ q r => adr q r = true | _ => True end ->
  forall sl sh, InvQ (Sys sl (wqs s) (put (cqs s) (cur k) b') (put (ws s) w (W (cur k) n p)) sh (sent s) (begun s ++ bs) (ended s ++ es)).
Proof.
  intros s w k n p b' l' d' bs es I H HB ON OS EO ED sl sh. set (s' := Sys _ _ _ _ _ _ _ _).
  pose proof (holds_content _ _ _ HB) as CB.
  destruct (q_ws s I w k H) as ((d0 & b0 & B0 & _) & OK & _).
  assert (LC : cur k < length (cqs s)) by (eapply nth_lt; eassumption).
  assert (LW : w < length (ws s)) by (eapply nth_lt; eassumption).
  assert (CN : forall m, cn s' m = if m =? cur k then l' else cn s m) by (intros m; rewrite <- CB; apply (cn_set s (cur k) b' m LC)).
  assert (CQ : forall q x, nth_error (wqs s) q = Some x -> cn s' (cqueue x) = cn s (cqueue x)).
  { intros q x X. rewrite CN. pose proof (nd_cq_ws s q x w k I X H). destruct (Nat.eqb_spec (cqueue x) (cur k)); [congruence|reflexivity]. }
  assert (CW : forall w' k', nth_error (ws s) w' = Some k' -> w' <> w -> cn s' (cur k') = cn s (cur k')).
  { intros w' k' H' D. rewrite CN. destruct (Nat.eqb_spec (cur k') (cur k)) as [e|]; [|reflexivity]. destruct D. eapply nd_ws; eassumption. }
  assert (GD : forall m d, m <> cur k -> good s m d -> good s' m d).
  { intros m d D (y & Y & HY). exists y. split; [|exact HY]. unfold s'. cbn [cqs]. rewrite put_other by congruence. exact Y. }
  assert (CK : cn s' (cur k) = l') by (rewrite CN, Nat.eqb_refl; reflexivity).
  assert (OK' : own s' (W (cur k) n p) = own s k) by (unfold own at 1; cbn [at_ cur]; rewrite CK; exact EO).
  assert (OW : forall w' k', nth_error (ws s) w' = Some k' -> w' <> w -> own s' k' = own s k') by (intros w' k' H' D; unfold own; rewrite (CW w' k' H' D); reflexivity).
  assert (WS : forall w' k', nth_error (ws s') w' = Some k' -> (w' = w /\ k' = W (cur k) n p) \/ (w' <> w /\ nth_error (ws s) w' = Some k')).
  { intros w' k' H'. apply put_inv in H'. tauto. }
  assert (WO : forall w' k', nth_error (ws s') w' = Some k' -> exists k0, nth_error (ws s) w' = Some k0 /\ own s' k' = own s k0).
  { intros w' k' H'. destruct (WS _ _ H') as [(-> & ->)|(D & H0)]; [exists k; auto|exists k'; split; [exact H0|apply (OW _ _ H0 D)]]. }
  pose proof I as []. constructor; auto.
  - cbn. rewrite put_length. exact q_lc0.
  - cbn. rewrite put_length. exact q_lw0.
  - unfold owners, s'. cbn [wqs ws]. rewrite map_put. cbn [cur]. rewrite (put_id _ (map cur (ws s))) by (apply map_nth_error; exact H). exact q_nd0.
  - intros q x X. change (nth_error (wqs s) q = Some x) in X. destruct (q_cq0 q x X) as [A1 A2]. split; [|rewrite (CQ _ _ X); exact A2]. apply GD; [|exact A1]. eapply nd_cq_ws; eassumption.
  - intros w' k' H'. destruct (WS _ _ H') as [(-> & ->)|(D & H0)].
    + rewrite OK'. cbn [cur at_]. rewrite CK. split; [exists d', b'; split; [unfold s'; cbn [cqs]; apply put_same; exact LC|rewrite CB; exact HB]|]. split; [|exact ED].
      destruct (own s k) as [q|] eqn:O.
      * destruct (OS q eq_refl) as (E & _). rewrite E in OK. destruct OK as [A1 A2]. apply Forall_app in A1. split; [apply A1|exact A2].
      * apply ON. reflexivity.
    + rewrite (CW _ _ H0 D), (OW _ _ H0 D). destruct (q_ws0 w' k' H0) as ((d & A1) & A2). split; [|exact A2]. exists d. apply GD; [|exact A1]. intros e. apply D. eapply nd_ws; eassumption.
  - intros w1 w2 k1 k2 q H1 H2 O1 O2. destruct (WO _ _ H1) as (a & A1 & A2). destruct (WO _ _ H2) as (b & B1 & B2). apply (q_un0 w1 w2 a b q); congruence.
  - intros q x X B. destruct (q_bs0 q x X B) as (w' & k' & H' & O'). destruct (Nat.eq_dec w' w) as [->|D].
    + exists w, (W (cur k) n p). cbn [ws s']. split; [apply put_same; exact LW|]. rewrite OK'. rewrite H in H'. injection H' as <-. exact O'.
    + exists w', k'. split; [cbn [ws s']; rewrite put_other by congruence; exact H'|]. rewrite (OW _ _ H' D). exact O'.
  - intros q x X. change (nth_error (wqs s) q = Some x) in X. destruct (q_hi0 q x X) as (h & e & A1 & A2 & A3 & A4). rewrite (CQ _ _ X).
    change (begun s') with (begun s ++ bs). change (ended s') with (ended s ++ es). change (sent s') with (sent s). rewrite !filter_app.
    destruct (own s k) as [q0|] eqn:O.
    + destruct (OS q0 eq_refl) as (E & FE & ER). destruct OK as (FA & x0 & X0 & BX). rewrite E in FA. apply Forall_app in FA. destruct FA as [FB _].
      rewrite (filter_adr q0 q bs FB), (filter_adr q0 q es FE). destruct (Nat.eqb_spec q q0) as [->|D].
      * destruct (A4 w k H O) as [-> ->]. exists l', (receiving (W (cur k) n p)). split; [rewrite A1, E, <- !app_assoc; reflexivity|]. split; [rewrite A2, <- !app_assoc, ER; reflexivity|].
        split; [rewrite X0 in X; injection X as <-; congruence|]. intros w' k' H' O'. destruct (WS _ _ H') as [(-> & ->)|(D & H0)]; [cbn [cur]; rewrite CK; auto|].
        rewrite (OW _ _ H0 D) in O'. destruct D. apply (q_un0 w' w k' k q0); assumption.
      * exists h, e. rewrite !app_nil_r. split; [exact A1|]. split; [exact A2|]. split; [exact A3|]. intros w' k' H' O'. destruct (WS _ _ H') as [(-> & ->)|(D' & H0)]; [rewrite OK' in O'; congruence|].
        rewrite (OW _ _ H0 D') in O'. rewrite (CW _ _ H0 D'). apply (A4 w' k' H0 O').
    + destruct (ON eq_refl) as (-> & -> & -> & _). cbn [filter]. rewrite !app_nil_r. exists h, e. split; [exact A1|]. split; [exact A2|]. split; [exact A3|].
      intros w' k' H' O'. destruct (WS _ _ H') as [(-> & ->)|(D' & H0)]; [rewrite OK' in O'; congruence|].
      rewrite (OW _ _ H0 D') in O'. rewrite (CW _ _ H0 D'). apply (A4 w' k' H0 O').
Qed.

(* transfer *)
Lemma Q_xfer : forall s w k i q o, InvQ s -> nth_error (ws s) w = Some k -> at_ k = Xfer i q -> q < nq c -> transfer s w k i q = o -> exists s', o = Ok s' /\ InvQ s'.
Proof.
  intros s w k i q o I H A Lq E. unfold transfer in E.
  destruct (nth_error (wqs s) q) as [x|] eqn:X; [|apply nth_error_None in X; rewrite (q_lq s I) in X; lia].
  destruct (q_ws s I w k H) as ((dk & bk & BK & HK) & OK & _).
  assert (ON : own s k = None) by (unfold own; rewrite A; reflexivity). rewrite ON in OK.
  destruct (busy x) eqn:BX.
  { subst o. eexists. split; [reflexivity|]. apply Q_go; auto; unfold own, receiving; cbn [at_ cur]; rewrite A, ?OK; reflexivity. }
  destruct (q_cq s I q x X) as ((b & B & HB) & FA). rewrite B in E. set (k' := W (cqueue x) (ec k) (Took i q)). set (s' := Sys (slots s) (put (wqs s) q (WQ (cur k) (negb (count b =? 0)))) (put (cqs s) (cqueue x) (cq_mark b)) (put (ws s) w k') (shut s) (sent s) (begun s) (ended s)).
  exists s'. split; [rewrite <- E; reflexivity|]. clear E.
  assert (LC : cqueue x < length (cqs s)) by (eapply nth_lt; eassumption). assert (LW : w < length (ws s)) by (eapply nth_lt; eassumption). assert (LQ : q < length (wqs s)) by (eapply nth_lt; eassumption).
  pose proof (mark_holds _ _ _ HB) as HM. pose proof (holds_content _ _ _ HM) as CM.
  assert (CN : forall m, cn s' m = cn s m).
  { intros m. transitivity (cn (set_cq s (cqueue x) (cq_mark b)) m); [reflexivity|]. rewrite cn_set by exact LC. destruct (Nat.eqb_spec m (cqueue x)) as [->|]; [|reflexivity]. unfold cn. rewrite B. exact CM. }
  assert (GD : forall m d, good s m d -> good s' m d).
  { intros m d (y & Y & HY). destruct (Nat.eq_dec m (cqueue x)) as [->|D].
    - rewrite B in Y. injection Y as <-. exists (cq_mark b). split; [apply put_same; exact LC|]. rewrite CM. apply mark_holds. exact HY.
    - exists y. split; [|exact HY]. unfold s'. cbn [cqs]. rewrite put_other by congruence. exact Y. }
  assert (CX : cn s (cqueue x) = content b) by (unfold cn; rewrite B; reflexivity).
  assert (BC : negb (count b =? 0) = match content b with [] => false | _ => true end).
  { pose proof (empty_holds _ _ _ HB) as Y. unfold cq_empty in Y. rewrite Y. destruct (content b); reflexivity. }
  assert (OW : forall k0, own s' k0 = own s k0) by (intros k0; unfold own; rewrite CN; reflexivity).
  assert (OK' : own s k' = match content b with [] => None | _ => Some q end) by (unfold own, k'; cbn [at_ cur]; rewrite CX; reflexivity).
  assert (NOQ : forall w' k0, nth_error (ws s) w' = Some k0 -> own s k0 <> Some q).
  { intros w' k0 H0 O0. destruct (q_ws s I w' k0 H0) as (_ & Y & _). rewrite O0 in Y. destruct Y as (_ & x0 & X0 & B0). congruence. }
  assert (WS : forall w' k0, nth_error (ws s') w' = Some k0 -> (w' = w /\ k0 = k') \/ (w' <> w /\ nth_error (ws s) w' = Some k0)) by (intros w' k0 H'; apply put_inv in H'; tauto).
  assert (WQ : forall q' x0, nth_error (wqs s') q' = Some x0 -> (q' = q /\ x0 = WQ (cur k) (negb (count b =? 0))) \/ (q' <> q /\ nth_error (wqs s) q' = Some x0)) by (intros q' x0 H'; apply put_inv in H'; tauto).
  pose proof I as []. constructor.
  - cbn. rewrite put_length. exact q_lq0.
  - cbn. rewrite put_length. exact q_lc0.
  - cbn. rewrite put_length. exact q_lw0.
  - unfold owners, s'. cbn [wqs ws]. rewrite !map_put. cbn [cur cqueue k'].
    assert (P : Permutation (put (map cqueue (wqs s)) q (cur k) ++ put (map cur (ws s)) w (cqueue x)) (owners s)).
    { rewrite <- put_app2. rewrite <- put_app1 by (rewrite map_length; exact LQ). rewrite put_length. apply put_swap.
      - rewrite map_length. lia.
      - unfold owners. rewrite nth_error_app1 by (rewrite map_length; exact LQ). apply map_nth_error. exact X.
      - unfold owners. rewrite nth_error_app2 by lia. replace (_ + w - _) with w by lia. apply map_nth_error. exact H. }
    rewrite P. exact q_nd0.
  - intros q' x0 X0. destruct (WQ _ _ X0) as [(-> & ->)|(D & X1)].
    + cbn [cqueue]. rewrite CN, OK. split; [|constructor]. apply GD. exists bk. split; [exact BK|]. unfold cn in OK. rewrite BK in OK. rewrite OK in *. eapply holds_done. exact HK.
    + rewrite CN. destruct (q_cq0 q' x0 X1) as [A1 A2]. split; [apply GD; exact A1|exact A2].
  - intros w' k0 H0. rewrite CN, OW. destruct (WS _ _ H0) as [(-> & ->)|(D & H1)].
    + rewrite OK'. unfold k' at 1 2 3 4 5. cbn [cur at_]. rewrite CX. split; [exists false; apply GD; exists b; auto|]. split; [|exact Logic.I].
      destruct (content b) eqn:CB; [reflexivity|]. split; [rewrite <- CX; exact FA|]. exists (Model.WQ (cur k) (negb (count b =? 0))). split; [apply put_same; exact LQ|exact BC].
    + destruct (q_ws0 w' k0 H1) as ((d & A1) & A2 & A3). split; [exists d; apply GD; exact A1|]. split; [|exact A3]. destruct (own s k0) as [q0|] eqn:O0; [|exact A2].
      destruct A2 as (A2 & x0 & X0 & B0). split; [exact A2|]. exists x0. split; [|exact B0]. unfold s'. cbn [wqs]. rewrite put_other; [exact X0|]. intros <-. congruence.
  - intros w1 w2 k1 k2 q0 H1 H2 O1 O2. rewrite OW in O1, O2. destruct (WS _ _ H1) as [(-> & ->)|(D1 & G1)], (WS _ _ H2) as [(-> & ->)|(D2 & G2)]; auto.
    + rewrite OK' in O1. destruct (content b); [discriminate|]. injection O1 as <-. destruct (NOQ _ _ G2 O2).
    + rewrite OK' in O2. destruct (content b); [discriminate|]. injection O2 as <-. destruct (NOQ _ _ G1 O1).
    + apply (q_un0 w1 w2 k1 k2 q0); assumption.
  - intros q' x0 X0 B0. destruct (WQ _ _ X0) as [(-> & ->)|(D & X1)].
    + cbn [busy] in B0. rewrite BC in B0. exists w, k'. split; [apply put_same; exact LW|]. rewrite OW, OK'. destruct (content b); [discriminate|reflexivity].
    + destruct (q_bs0 q' x0 X1 B0) as (w' & k0 & H0 & O0). exists w', k0. split; [|rewrite OW; exact O0]. unfold s'. cbn [ws]. rewrite put_other; [exact H0|]. intros <-. rewrite H in H0. injection H0 as <-. congruence.
  - intros q' x0 X0. change (sent s') with (sent s). change (begun s') with (begun s). change (ended s') with (ended s). rewrite CN. destruct (WQ _ _ X0) as [(-> & ->)|(D & X1)].
    + destruct (q_hi0 q x X) as (h & e & A1 & A2 & A3 & A4). destruct (A3 BX) as [-> ->]. rewrite CX in A1. cbn [cqueue busy]. rewrite OK. exists (content b), []. rewrite app_nil_r. split; [exact A1|]. split; [exact A2|].
      split; [rewrite BC; destruct (content b); [auto|discriminate]|]. intros w' k0 H0 O0. rewrite OW in O0. rewrite CN. destruct (WS _ _ H0) as [(-> & ->)|(D1 & G1)]; [cbn [k' cur]; rewrite CX; auto|destruct (NOQ _ _ G1 O0)].
    + destruct (q_hi0 q' x0 X1) as (h & e & A1 & A2 & A3 & A4). exists h, e. split; [exact A1|]. split; [exact A2|]. split; [exact A3|].
      intros w' k0 H0 O0. rewrite OW in O0. rewrite CN. destruct (WS _ _ H0) as [(-> & ->)|(D1 & G1)]; [rewrite OK' in O0; destruct (content b); [discriminate|congruence]|apply (A4 _ _ G1 O0)].
Qed.

(* being_processed = false *)
Lemma Q_done : forall s w k i q x, InvQ s -> nth_error (ws s) w = Some k -> at_ k = Done i q -> nth_error (wqs s) q = Some x -> forall sl sh n,
  InvQ (Sys sl (put (wqs s) q (WQ (cqueue x) false)) (cqs s) (put (ws s) w (W (cur k) n (Ends i))) sh (sent s) (begun s) (ended s)).
Proof.
  intros s w k i q x I H A X sl sh n. set (k' := W (cur k) n (Ends i)). set (s' := Sys _ _ _ _ _ _ _ _).
  assert (LW : w < length (ws s)) by (eapply nth_lt; eassumption). assert (LQ : q < length (wqs s)) by (eapply nth_lt; eassumption).
  assert (CN : forall m, cn s' m = cn s m) by reflexivity. assert (OW : forall k0, own s' k0 = own s k0) by reflexivity.
  assert (O : own s k = Some q) by (unfold own; rewrite A; reflexivity).
  destruct (q_ws s I w k H) as (GK & OK & ED). rewrite A in ED.
  assert (WS : forall w' k0, nth_error (ws s') w' = Some k0 -> (w' = w /\ k0 = k') \/ (w' <> w /\ nth_error (ws s) w' = Some k0)) by (intros w' k0 H'; apply put_inv in H'; tauto).
  assert (WQ : forall q' x0, nth_error (wqs s') q' = Some x0 -> (q' = q /\ x0 = WQ (cqueue x) false) \/ (q' <> q /\ nth_error (wqs s) q' = Some x0)) by (intros q' x0 H'; apply put_inv in H'; tauto).
  pose proof I as []. constructor; auto.
  - cbn. rewrite put_length. exact q_lq0.
  - cbn. rewrite put_length. exact q_lw0.
  - unfold owners, s'. cbn [wqs ws]. rewrite !map_put. cbn [cur k' cqueue]. rewrite !put_id by (apply map_nth_error; assumption). exact q_nd0.
  - intros q' x0 X0. destruct (WQ _ _ X0) as [(-> & ->)|(D & X1)]; [exact (q_cq0 q x X)|exact (q_cq0 q' x0 X1)].
  - intros w' k0 H0. rewrite CN, OW. destruct (WS _ _ H0) as [(-> & ->)|(D & H1)]; [cbn; auto|].
    destruct (q_ws0 w' k0 H1) as (A1 & A2 & A3). split; [exact A1|]. split; [|exact A3]. destruct (own s k0) as [q0|] eqn:O0; [|exact A2].
    destruct A2 as (A2 & x0 & X0 & B0). split; [exact A2|]. exists x0. split; [|exact B0]. unfold s'. cbn [wqs]. rewrite put_other; [exact X0|]. intros <-. apply D. eapply q_un0; eassumption.
  - intros w1 w2 k1 k2 q0 H1 H2 O1 O2. rewrite OW in O1, O2. destruct (WS _ _ H1) as [(-> & ->)|(D1 & G1)]; [discriminate|]. destruct (WS _ _ H2) as [(-> & ->)|(D2 & G2)]; [discriminate|].
    apply (q_un0 w1 w2 k1 k2 q0); assumption.
  - intros q' x0 X0 B0. destruct (WQ _ _ X0) as [(-> & ->)|(D & X1)]; [discriminate|].
    destruct (q_bs0 q' x0 X1 B0) as (w' & k0 & H0 & O0). exists w', k0. split; [|exact O0]. unfold s'. cbn [ws]. rewrite put_other; [exact H0|]. intros <-. rewrite H in H0. injection H0 as <-. congruence.
  - intros q' x0 X0. change (sent s') with (sent s). change (begun s') with (begun s). change (ended s') with (ended s). rewrite CN. destruct (WQ _ _ X0) as [(-> & ->)|(D & X1)].
    + destruct (q_hi0 q x X) as (h & e & A1 & A2 & A3 & A4). destruct (A4 w k H O) as [E1 E2]. rewrite ED in E1. unfold receiving in E2. rewrite A in E2. subst h e. exists [], []. split; [exact A1|]. split; [exact A2|]. split; [auto|].
      intros w' k0 H0 O0. rewrite OW in O0. destruct (WS _ _ H0) as [(-> & ->)|(D1 & G1)]; [discriminate|]. destruct D1. eapply q_un0; eassumption.
    + destruct (q_hi0 q' x0 X1) as (h & e & A1 & A2 & A3 & A4). exists h, e. split; [exact A1|]. split; [exact A2|]. split; [exact A3|].
      intros w' k0 H0 O0. rewrite OW in O0. rewrite CN. destruct (WS _ _ H0) as [(-> & ->)|(D1 & G1)]; [discriminate|apply (A4 _ _ G1 O0)].
Qed.

Lemma Q_work : forall s w b x y z o, InvS s -> InvQ s -> work c s w b x y z = Some o -> exists s', o = Ok s' /\ InvQ s'.
Proof.
  intros s w b x y z o IS I H. pose proof (S_work s w b x y z o IS H) as SW. unfold work in H. destruct (nth_error (ws s) w) as [k|] eqn:K; [|discriminate].
  pose proof (s_pok s IS w k K) as P. destruct (q_ws s I w k K) as ((dk & bk & BK & HK) & OK & ED).
  assert (CK : cn s (cur k) = content bk) by (unfold cn; rewrite BK; reflexivity).
  assert (GO : forall n p sl sh, own s (W (cur k) n p) = own s k -> receiving (W (cur k) n p) = receiving k ->
    match p with Done _ _ => cn s (cur k) = [] | Busy _ q r => adr q r = true | _ => True end ->
    InvQ (Sys sl (wqs s) (cqs s) (put (ws s) w (W (cur k) n p)) sh (sent s) (begun s) (ended s))) by (intros; eapply Q_go; eassumption).
  unfold own, receiving in GO. cbn [at_ cur] in GO.
  assert (NOT : o <> Assert) by (intros ->; exact SW).
  assert (SM : forall s', o = Ok s' -> InvQ s' -> exists s', o = Ok s' /\ InvQ s') by eauto.
  destruct (at_ k) eqn:A; cbn [pok] in P; try rewrite BK in H.
  - (* Top *) destruct (nth_error (slots s) (i + begin_ c w)); injection H as <-; [|destruct SW as (k1 & i1 & q1 & K1 & X); injection K1 as <-; intuition congruence].
    eexists; split; [reflexivity|]. apply GO; auto.
  - (* Look *) destruct P as (_ & q' & -> & _). destruct b; [destruct (S (ec k) <? threshold c w)|]; injection H as <-; (eexists; split; [reflexivity|]; apply GO; auto).
  - (* Xfer *) injection H as <-. destruct P as [_ Lq]. eapply Q_xfer; try eassumption. reflexivity.
  - (* Took *) rewrite (empty_holds _ _ _ HK), <- CK in H. destruct (cn s (cur k)) eqn:C0.
    + destruct (nosteal c); [injection H as <-; eexists; split; [reflexivity|]; destruct (shut s); apply GO; auto|].
      destruct (S (ec k) <? threshold c w); injection H as <-; (eexists; split; [reflexivity|]); [apply GO; auto|]. destruct (shut s); apply GO; auto.
    + injection H as <-. eexists; split; [reflexivity|]. apply GO; auto.
  - (* Steal *) destruct (_ && _); [|discriminate]. injection H as <-. eexists; split; [reflexivity|]. apply GO; auto.
  - (* Pick *) destruct (t <? vic_range (nw c) (nq c) v); [|injection H as <-; eexists; split; [reflexivity|]; apply GO; auto].
    destruct (nth_error (slots s) (j + vic_start (nw c) (nq c) v)) as [[q|]|]; [destruct b| |]; injection H as <-; try (eexists; split; [reflexivity|]; apply GO; auto; fail).
    destruct SW as (k1 & i1 & q1 & K1 & X); injection K1 as <-; intuition congruence.
  - (* SwapA *) destruct (nth_error (slots s) m); injection H as <-; [eexists; split; [reflexivity|]; apply GO; auto|].
    destruct SW as (k1 & i1 & q1 & K1 & X); injection K1 as <-; intuition congruence.
  - (* SwapB *) destruct (nth_error (slots s) v) as [[q|]|]; injection H as <-; try (eexists; split; [reflexivity|]; apply GO; auto; fail).
    destruct SW as (k1 & i1 & q1 & K1 & X); injection K1 as <-; intuition congruence.
  - (* SwapC *) destruct (nth_error (slots s) m) as [q|]; [destruct (oeqb q my)|]; injection H as <-; try (eexists; split; [reflexivity|]; apply GO; auto; fail).
    destruct SW as (k1 & i1 & q1 & K1 & X); injection K1 as <-; intuition congruence.
  - (* SwapD *) destruct (nth_error (slots s) v) as [q|]; [destruct (oeqb q (Some o0))|]; injection H as <-; try (eexists; split; [reflexivity|]; apply GO; auto; fail).
    destruct SW as (k1 & i1 & q1 & K1 & X); injection K1 as <-; intuition congruence.
  - (* SwapE *) destruct (nth_error (slots s) m) as [[q|]|]; injection H as <-; try (eexists; split; [reflexivity|]; apply GO; auto; fail); destruct NOT; reflexivity.
  - (* SwapF *) injection H as <-. eexists; split; [reflexivity|]. apply GO; auto.
  - (* Run *) assert (OR : own s k = Some q) by (unfold own; rewrite A; reflexivity). rewrite OR in OK. destruct OK as [FA _].
    rewrite (empty_holds _ _ _ HK), <- CK in H. destruct (cn s (cur k)) as [|r l] eqn:C0.
    + injection H as <-. eexists; split; [reflexivity|]. apply GO; auto.
    + rewrite <- CK in HK. destruct (remove_holds bk r l dk HK) as (b' & E & HB & _). rewrite E in H. injection H as <-. eexists. split; [reflexivity|].
      unfold go, set_cq, with_ws. cbn [slots wqs cqs ws shut sent begun ended].
      pose proof (Q_priv s w k (ec k) (Busy i q r) b' l _ [r] [] I K HB) as QP. rewrite app_nil_r in QP. apply QP.
      * congruence.
      * intros q0 O0. rewrite OR in O0. injection O0 as <-. split; [exact C0|]. split; [constructor|]. unfold receiving. rewrite A. reflexivity.
      * symmetry. exact OR.
      * apply (Forall_inv FA).
  - (* Busy *) assert (OR : own s k = Some q) by (unfold own; rewrite A; reflexivity). injection H as <-. eexists. split; [reflexivity|].
    unfold go, with_ws. cbn [slots wqs cqs ws shut sent begun ended].
    pose proof (Q_priv s w k (ec k) (Run i q) bk (content bk) dk [] [r] I K HK) as QP. rewrite !app_nil_r in QP. rewrite (put_id _ (cqs s)) in QP by exact BK. apply QP.
    + congruence.
    + intros q0 O0. rewrite OR in O0. injection O0 as <-. split; [exact CK|]. split; [constructor; auto|]. unfold receiving. rewrite A. reflexivity.
    + symmetry. exact OR.
    + exact Logic.I.
  - (* Done *) destruct P as [_ Lq]. destruct (nth_error (wqs s) q) as [xx|] eqn:X; [|apply nth_error_None in X; rewrite (q_lq s I) in X; lia]. injection H as <-. eexists. split; [reflexivity|].
    exact (Q_done s w k i q xx I K A X (slots s) (shut s) 0).
  - (* Ends *) destruct (shut s); [injection H as <-; eexists; split; [reflexivity|]; apply GO; auto|]. injection H as <-. eexists. split; [reflexivity|].
    assert (OR : own s k = None) by (unfold own; rewrite A; reflexivity). rewrite OR in OK. rewrite CK in OK. rewrite OK in HK. destruct (reclaim_holds bk (holds_done _ _ HK)) as [HR _].
    pose proof (Q_priv s w k (ec k) (next c w i) (cq_reclaim bk) [] false [] [] I K HR) as QP. rewrite !app_nil_r in QP. apply QP.
    + auto.
    + congruence.
    + symmetry. exact OR.
    + exact Logic.I.
  - discriminate.
Qed.

Lemma inv_reach : forall s, reach c s -> InvS s /\ InvQ s.
Proof.
  intros s R. induction R as [|s e s' R [IS IQ] H]; [split; [apply S_init|apply Q_init]|]. destruct e as [r| |w b x y z]; cbn [step] in H.
  - destruct (Q_send s r _ IQ eq_refl) as (s1 & E & I1). rewrite E in H. injection H as <-. split; [|exact I1].
    unfold send in E. destruct (nth_error (wqs s) (tk c (rcv r))); [|discriminate]. destruct (nth_error (cqs s) (cqueue w)); [|discriminate]. destruct (cq_insert c0 r); [|discriminate]. injection E as <-. destruct IS. constructor; auto.
  - injection H as <-. split; [destruct IS; constructor; auto|destruct IQ; constructor; auto].
  - split; [exact (S_work s w b x y z (Ok s') IS H)|]. destruct (Q_work s w b x y z _ IS IQ H) as (s1 & E & I1). injection E as ->. exact I1.
Qed.

(* -- what follows -- *)

Lemma for_adr : forall a l, for_actor a (filter (adr (tk c a)) l) = for_actor a l.
Proof.
  intros a. induction l as [|r l IH]; [reflexivity|]. unfold for_actor in *. cbn [filter]. destruct (adr (tk c a) r) eqn:E.
  - cbn [filter]. rewrite IH. reflexivity.
  - rewrite IH. destruct (Nat.eqb_spec (rcv r) a) as [<-|D]; [|reflexivity]. unfold adr in E. rewrite Nat.eqb_refl in E. discriminate.
Qed.

Lemma for_other : forall a q l, q <> tk c a -> Forall (fun r => adr q r = true) l -> for_actor a l = [].
Proof.
  intros a q l D F. unfold for_actor. induction F as [|r l H F IH]; [reflexivity|]. cbn [filter]. destruct (Nat.eqb_spec (rcv r) a) as [E|E]; [|exact IH].
  unfold adr in H. apply Nat.eqb_eq in H. congruence.
Qed.

Lemma fm_none : forall A a (f : A -> list req) l, (forall n x, nth_error l n = Some x -> for_actor a (f x) = []) -> for_actor a (flat_map f l) = [].
Proof.
  intros A a f. induction l as [|x l IH]; intros H; [reflexivity|]. cbn [flat_map]. unfold for_actor in *. rewrite filter_app.
  rewrite (H 0 x eq_refl). apply IH. intros n y Y. exact (H (S n) y Y).
Qed.

Lemma fm_one : forall A a (f : A -> list req) l w k, nth_error l w = Some k -> (forall n x, nth_error l n = Some x -> n <> w -> for_actor a (f x) = []) ->
  for_actor a (flat_map f l) = for_actor a (f k).
Proof.
  intros A a f. induction l as [|x l IH]; intros [|w] k K H; try discriminate; cbn [flat_map]; unfold for_actor at 1; rewrite filter_app; fold (for_actor a (f x)); fold (for_actor a (flat_map f l)).
  - injection K as ->. rewrite (fm_none A a f l); [apply app_nil_r|]. intros n y Y. exact (H (S n) y Y ltac:(discriminate)).
  - rewrite (H 0 x eq_refl) by discriminate. apply (IH w k K). intros n y Y D. apply (H (S n) y Y). congruence.
Qed.

Lemma rcv_owner : forall s w k a, InvQ s -> nth_error (ws s) w = Some k -> for_actor a (receiving k) <> [] -> own s k = Some (tk c a).
Proof.
  intros s w k a I K H. destruct (q_ws s I w k K) as (_ & _ & ED). unfold receiving, own in *. destruct (at_ k); cbn in H; try congruence.
  cbn in H. destruct (Nat.eqb_spec (rcv r) a) as [<-|]; [|congruence]. unfold adr in ED. apply Nat.eqb_eq in ED. congruence.
Qed.

Lemma history : forall s a, InvQ s -> exists h,
  for_actor a (sent s) = for_actor a (begun s) ++ h /\
  for_actor a (begun s) = for_actor a (ended s) ++ for_actor a (flat_map receiving (ws s)) /\
  length (for_actor a (flat_map receiving (ws s))) <= 1 /\
  ((forall n, cn s n = []) -> h = []).
Proof.
  intros s a I. destruct FC as (_ & _ & F3). specialize (F3 a).
  destruct (nth_error (wqs s) (tk c a)) as [x|] eqn:X; [|apply nth_error_None in X; rewrite (q_lq s I) in X; lia].
  destruct (q_hi s I _ _ X) as (h & e & H1 & H2 & H3 & H4). exists (for_actor a (h ++ cn s (cqueue x))).
  assert (E1 : for_actor a (sent s) = for_actor a (begun s) ++ for_actor a (h ++ cn s (cqueue x))).
  { rewrite <- (for_adr a (sent s)), H1. unfold for_actor at 1. rewrite filter_app. f_equal. apply for_adr. }
  assert (E2 : for_actor a (begun s) = for_actor a (ended s) ++ for_actor a e).
  { rewrite <- (for_adr a (begun s)), H2. unfold for_actor at 1. rewrite filter_app. f_equal. apply for_adr. }
  assert (NO : forall n k, nth_error (ws s) n = Some k -> own s k <> Some (tk c a) -> for_actor a (receiving k) = []).
  { intros n k K O. destruct (for_actor a (receiving k)) eqn:E; [reflexivity|]. destruct O. eapply rcv_owner; try eassumption. congruence. }
  assert (E3 : for_actor a (flat_map receiving (ws s)) = for_actor a e /\ length (for_actor a e) <= 1 /\ ((forall n, cn s n = []) -> h = [])).
  { destruct (busy x) eqn:B.
    - destruct (q_bs s I _ _ X B) as (w & k & K & O). destruct (H4 w k K O) as [-> ->]. split; [|split].
      + apply (fm_one _ a receiving (ws s) w k K). intros n k' K' D. apply (NO n k' K'). intros O'. apply D. eapply q_un; eassumption.
      + unfold receiving. destruct (at_ k); cbn; try lia. destruct (rcv r =? a); cbn; lia.
      + intros Z. apply Z.
    - destruct (H3 eq_refl) as [-> ->]. split; [|split; [cbn; lia|reflexivity]]. apply fm_none. intros n k K. apply (NO n k K).
      intros O. destruct (q_ws s I n k K) as (_ & A & _). rewrite O in A. destruct A as (_ & x' & X' & B'). congruence. }
  destruct E3 as (E3 & E4 & E5). rewrite E3. split; [exact E1|]. split; [exact E2|]. split; [exact E4|]. intros Z. rewrite (E5 Z), Z. reflexivity.
Qed.

(* nothing lost, exits *)
Definition InvP (s : sys) : Prop := Permutation (sent s) (begun s ++ flat_map content (cqs s)) /\ (forall w k, nth_error (ws s) w = Some k -> at_ k = Exited -> shut s = true).

Lemma P_init : InvP (init c).
Proof.
  split.
  - cbn [init sent begun cqs app]. assert (X : forall n, flat_map content (repeat (cq_new (bufsize c)) n) = []); [|rewrite X; constructor].
    induction n as [|n IH]; [reflexivity|]. cbn [repeat flat_map]. rewrite IH. reflexivity.
  - intros w k K E. cbn [init ws] in K. apply nth_error_In in K. apply in_map_iff in K. destruct K as (i & <- & _). discriminate.
Qed.

Lemma fm_put : forall (l : list cq) n b b', nth_error l n = Some b -> content b' = content b -> flat_map content (put l n b') = flat_map content l.
Proof. induction l as [|x l IH]; intros [|n] b b' H E; try discriminate; cbn [put flat_map]; [injection H as ->; congruence|]. f_equal. eapply IH; eassumption. Qed.

Lemma P_go : forall s w k p n sl wq' cq' cu, InvP s -> nth_error (ws s) w = Some k -> p <> Exited \/ shut s = true -> flat_map content cq' = flat_map content (cqs s) ->
  InvP (Sys sl wq' cq' (put (ws s) w (W cu n p)) (shut s) (sent s) (begun s) (ended s)).
Proof.
  intros s w k p n sl wq' cq' cu [I1 I2] K N E. split; cbn [sent begun cqs shut ws]; [rewrite E; exact I1|]. intros w' k' K' E'. apply put_inv in K'. destruct K' as [(-> & -> & _)|(_ & K')]; [|eapply I2; eassumption].
  cbn in E'. destruct N; congruence.
Qed.

Lemma P_step : forall s e s', InvQ s -> InvP s -> step c s e = Some (Ok s') -> InvP s'.
Proof.
  intros s e s' IQ I H. destruct e as [r| |w b x y z]; cbn [step] in H.
  - injection H as H. unfold send in H. destruct (nth_error (wqs s) (tk c (rcv r))) as [q|] eqn:X; [|discriminate]. destruct (nth_error (cqs s) (cqueue q)) as [b|] eqn:B; [|discriminate].
    destruct (q_cq s IQ _ _ X) as ((b0 & B0 & HB) & _). rewrite B in B0. injection B0 as <-. destruct (insert_holds b _ r HB) as (b' & E & HB' & _). rewrite E in H. injection H as <-.
    destruct I as [I1 I2]. split; [|exact I2]. cbn [sent begun cqs set_cq]. pose proof (perm_put _ _ content (cqs s) (cqueue q) b b' B) as P. rewrite (holds_content _ _ _ HB') in P.
    rewrite <- app_assoc in P. apply Permutation_app_inv_l in P. rewrite P, I1. rewrite (Permutation_app_comm _ [r]). cbn [app]. apply Permutation_middle.
  - injection H as <-. destruct I as [I1 I2]. split; [exact I1|]. intros. reflexivity.
  - unfold work in H. destruct (nth_error (ws s) w) as [k|] eqn:K; [|discriminate]. destruct (q_ws s IQ w k K) as ((dk & bk & BK & HK) & OK & ED).
    assert (GO : forall n p sl, p <> Exited \/ shut s = true -> InvP (Sys sl (wqs s) (cqs s) (put (ws s) w (W (cur k) n p)) (shut s) (sent s) (begun s) (ended s))) by (intros; eapply P_go; eauto).
    unfold go, go_ec, set_slot, with_ws, next in H. cbn [slots wqs cqs ws shut sent begun ended] in H. try rewrite BK in H.
    assert (TK : forall (A : bool) a b, (if A then a else b) = b -> b <> Exited -> (if A then a else b) <> Exited \/ A = true) by (intros; left; congruence).
    destruct (at_ k) eqn:A.
    + destruct (nth_error (slots s) _); [|discriminate]. injection H as <-. apply GO. left; discriminate.
    + destruct q as [q|]; [|discriminate]. destruct b; [destruct (_ <? _)|]; injection H as <-; apply GO; left; discriminate.
    + injection H as H. unfold transfer in H. destruct (nth_error (wqs s) q) as [v|] eqn:X; [|discriminate]. destruct (busy v); [injection H as <-; apply GO; left; discriminate|].
      destruct (nth_error (cqs s) (cqueue v)) as [b0|] eqn:B; [|discriminate]. injection H as <-. refine (P_go s w k (Took i q) _ _ _ _ _ I K ltac:(left; discriminate) _). eapply fm_put; [exact B|reflexivity].
    + destruct (cq_empty bk); [|injection H as <-; apply GO; left; discriminate]. destruct (nosteal c); [injection H as <-; apply GO; destruct (shut s); auto; left; discriminate|].
      destruct (_ <? _); injection H as <-; apply GO; [left; discriminate|]. destruct (shut s); auto; left; discriminate.
    + destruct (_ && _); [|discriminate]. injection H as <-. apply GO. left; discriminate.
    + destruct (_ <? _); [|injection H as <-; apply GO; left; discriminate]. destruct (nth_error (slots s) _) as [[q|]|]; [destruct b| |]; try discriminate; injection H as <-; apply GO; left; discriminate.
    + destruct (nth_error (slots s) _); [|discriminate]. injection H as <-. apply GO. left; discriminate.
    + destruct (nth_error (slots s) _) as [[q|]|]; try discriminate; injection H as <-; apply GO; left; discriminate.
    + destruct (nth_error (slots s) _) as [q|]; try discriminate; destruct (oeqb _ _); injection H as <-; apply GO; left; discriminate.
    + destruct (nth_error (slots s) _) as [q|]; try discriminate; destruct (oeqb _ _); injection H as <-; apply GO; left; discriminate.
    + destruct (nth_error (slots s) _) as [[q|]|]; try discriminate; injection H as <-; apply GO; left; discriminate.
    + injection H as <-. apply GO. left; discriminate.
    + destruct (cq_empty bk) eqn:EM; [injection H as <-; apply GO; left; discriminate|]. rewrite (empty_holds _ _ _ HK) in EM. destruct (content bk) as [|r l] eqn:CB; [discriminate|].
      destruct (remove_holds bk r l dk HK) as (b' & E & HB & _). rewrite E in H. injection H as <-. destruct I as [I1 I2]. split; cbn [sent begun cqs ws shut set_cq].
      * pose proof (perm_put _ _ content (cqs s) (cur k) bk b' BK) as P. rewrite CB, (holds_content _ _ _ HB) in P. change (r :: l) with ([r] ++ l) in P. rewrite (Permutation_app_comm [r] l), <- app_assoc in P. apply Permutation_app_inv_l in P.
        rewrite <- app_assoc, P. exact I1.
      * intros w' k' K' E'. apply put_inv in K'. destruct K' as [(-> & -> & _)|(_ & K')]; [discriminate|eapply I2; eassumption].
    + injection H as <-. destruct (GO (ec k) (Run i q) (slots s) ltac:(left; discriminate)) as [G1 G2]. split; [exact G1|exact G2].
    + destruct (nth_error (wqs s) q); [|discriminate]. injection H as <-. refine (P_go s w k (Ends i) _ _ _ _ _ I K ltac:(left; discriminate) eq_refl).
    + destruct (shut s) eqn:SH; [injection H as <-; apply GO; auto|]. injection H as <-. refine (P_go s w k (Top _) _ _ _ _ _ I K ltac:(left; discriminate) _).
      eapply fm_put; [exact BK|]. unfold own in OK. rewrite A in OK. unfold cn in OK. rewrite BK in OK. rewrite OK in *. destruct (reclaim_holds bk (holds_done _ _ HK)) as [HR _]. exact (holds_content _ _ _ HR).
    + discriminate.
Qed.

Lemma P_reach : forall s, reach c s -> InvP s.
Proof. intros s R. induction R as [|s e s' R I H]; [apply P_init|]. eapply P_step; [apply (proj2 (inv_reach s R))|exact I|exact H]. Qed.

Lemma alive : forall s w k, reach c s -> nth_error (ws s) w = Some k -> at_ k <> Exited -> exists b x y z s', work c s w b x y z = Some (Ok s').
Proof.
  intros s w k R K N. destruct (inv_reach s R) as [IS IQ]. assert (LW : w < nw c) by (rewrite <- (s_lw s IS); eapply nth_lt; eassumption).
  destruct FC as (F1 & _ & _). pose proof (range_pos (nw c) (nq c) w ltac:(lia) ltac:(lia)) as RP.
  assert (X : exists o, work c s w false w 0 0 = Some o).
  { unfold work. rewrite K. destruct (at_ k) eqn:A; try (eexists; reflexivity); try congruence.
    - destruct (nth_error (slots s) _); eauto.
    - destruct q; eauto.
    - destruct (nth_error (cqs s) _); [|eauto]. destruct (cq_empty _); [|eauto]. destruct (nosteal c); [eauto|]. destruct (_ <? _); eauto.
    - rewrite <- range_eq. rewrite !(proj2 (Nat.ltb_lt _ _)) by lia. cbn. eauto.
    - destruct (_ <? _); [|eauto]. destruct (nth_error (slots s) _) as [[q|]|]; eauto.
    - destruct (nth_error (slots s) _); eauto.
    - destruct (nth_error (slots s) _) as [[|]|]; eauto.
    - destruct (nth_error (slots s) _) as [q|]; [destruct (oeqb _ _)|]; eauto.
    - destruct (nth_error (slots s) _) as [q|]; [destruct (oeqb _ _)|]; eauto.
    - destruct (nth_error (slots s) _) as [[|]|]; eauto.
    - destruct (nth_error (cqs s) _); [|eauto]. destruct (cq_empty _); [eauto|]. destruct (cq_remove _); eauto.
    - destruct (nth_error (wqs s) _); eauto.
    - destruct (shut s); [eauto|]. destruct (nth_error (cqs s) _); eauto. }
  destruct X as (o & X). destruct (Q_work s w false w 0 0 o IS IQ X) as (s' & -> & _). exists false, w, 0, 0, s'. exact X.
Qed.
End S.
