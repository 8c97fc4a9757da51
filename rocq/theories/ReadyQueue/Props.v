From Coq Require Import ZArith List Bool Lia ZifyBool Permutation.
From Verif.ReadyQueue Require Import Model Spec Proofs Steps.
Import ListNotations.
Open Scope nat_scope.

Lemma unqueued : forall q s t, Full q s -> ~ queued s t -> forall j, ~ In t (lane s j).
Proof.
  intros q s t F U j J. destruct (Nat.lt_ge_cases j (size s)) as [K|K]; [apply U; exists j; auto|].
  rewrite (p_none _ _ (f_rep _ _ F)) in J by (rewrite (f_cap _ _ F); auto). auto.
Qed.
Lemma push_full : forall q s i t now, Full q s -> i < size s -> ~ queued s t -> sensible now ->
  exists q1, push q i t now = Ok q1 /\ Full q1 (R (size s) (procs s) (put (lane s) i (lane s i ++ [t]))).
Proof.
  intros q s i t now F I U S. destruct (push_ok q (lane s) i t now (f_rep _ _ F)) as (q1 & P & R1 & _ & C1 & N1 & T1 & _); auto.
  { rewrite (f_cap _ _ F). auto. } { eapply unqueued; eauto. }
  exists q1. split; auto. destruct F as [F1 F2 F3 F4 F5]. constructor; cbn [size procs lane]; auto; congruence.
Qed.
Lemma own_lanes : forall q s p i, Full q s -> p < procs s -> i = 2 * p \/ i = 2 * p + 1 -> i < size s.
Proof. intros q s p i F H C. destruct (f_size _ _ F) as [E|[_ E]]; [|lia]. rewrite E. unfold lanes. lia. Qed.
Lemma fast_ok : forall q s p itr help, Full q s -> p < procs s -> exists q1 x s1, pop_fast q p itr help = Ok (q1, x) /\ spec s (PopFast p itr help) s1 x /\ Full q1 s1.
Proof.
  intros q s p itr help F H. unfold pop_fast.
  assert (OWN : exists q1 x s1, bind (try_pop q (choose_local p itr)) (fun '(q2, r2) => match r2 with Some _ => Ok (q2, r2) | None => try_pop q2 (choose_local p (u32 (itr + 1))) end) = Ok (q1, x)
    /\ spec s (PopFast p itr help) s1 x /\ Full q1 s1).
  { pose proof (choose_local_cases p itr) as C1. pose proof (choose_local_cases p (u32 (itr + 1))) as C2. pose proof (choose_local_next p itr) as NE.
    destruct (try_pop_ok q s (choose_local p itr) F) as [[E1 P1]|(t & q1 & s1 & TK & P & F1)]; [eapply own_lanes; eauto| |]; rewrite ?P1, ?P; cbn [bind].
    - destruct (try_pop_ok q s (choose_local p (u32 (itr + 1))) F) as [[E2 P2]|(t & q1 & s1 & TK & P & F1)]; [eapply own_lanes; eauto| |].
      + rewrite P2. exists q, None, s. split; auto. split; auto. apply fast_none; auto; destruct C1 as [C1|C1], C2 as [C2|C2]; congruence.
      + rewrite P. exists q1, (Some t), s1. split; auto. split; auto. eapply fast_some; eauto. tauto.
    - exists q1, (Some t), s1. split; auto. split; auto. eapply fast_some; eauto. tauto. }
  destruct help as [w|]; [|cbn [bind]; exact OWN]. rewrite (f_count _ _ F). destruct (Nat.ltb_spec w (size s)) as [W|W]; [|cbn [bind]; exact OWN].
  destruct (try_pop_ok q s w F W) as [[E1 P1]|(t & q1 & s1 & TK & P & F1)]; rewrite ?P1, ?P; cbn [bind]; [exact OWN|].
  exists q1, (Some t), s1. split; auto. split; auto. eapply fast_some; eauto.
Qed.
Lemma step_ok : forall q s o, Full q s -> proper s o -> exists q1 x s1, step q o = Ok (q1, x) /\ spec s o s1 x /\ Full q1 s1.
Proof.
  intros q s o F P. destruct o as [t r now|p its t now|w|p itr help|off|n pl|n pl ms]; cbn [proper step] in *; rewrite ?(f_count _ _ F), ?(f_total _ _ F).
  - destruct P as (Z & U & S). assert (CL : choose_remote (size s) (pref q t) r < size s).
    { apply choose_remote_lt; auto. destruct (f_size _ _ F) as [->|[E _]]; [apply lanes_even|lia]. }
    rewrite (proj2 (Nat.ltb_lt _ _)) by auto. cbn [negb]. destruct (push_full q s _ t now F CL U S) as (q1 & -> & F1). cbn [bind]. do 3 eexists. split; [reflexivity|]. split; [|exact F1]; apply push_remote; auto.
  - destruct P as (Z & U & S). rewrite (proj2 (Nat.ltb_lt _ _)) by auto. pose proof (choose_local_cases p its) as C. assert (CL : choose_local p its < size s) by (eapply own_lanes; eauto).
    rewrite (proj2 (Nat.ltb_lt _ _)) by auto. cbn [negb]. destruct (push_full q s _ t now F CL U S) as (q1 & -> & F1). cbn [bind]. do 3 eexists. split; [reflexivity|]. split; [|exact F1]; apply push_local; auto.
  - rewrite (proj2 (Nat.ltb_lt _ _)) by auto. destruct (try_pop_ok q s w F P) as [[E1 P1]|(t & q1 & s1 & TK & P1 & F1)].
    + exists q, None, s. split; auto. split; auto. apply try_none; auto.
    + exists q1, (Some t), s1. split; auto. split; auto. apply try_some; auto.
  - rewrite (proj2 (Nat.ltb_lt _ _)) by auto. apply fast_ok; auto.
  - destruct (search_ok (size s) q s off 0 F) as [[E P1]|(w & t & q1 & s1 & TK & P1 & F1)]; [lia| |].
    + exists q, None, s. split; auto. split; auto. apply search_none.
    + exists q1, (Some t), s1. split; auto. split; auto. eapply search_some; eauto.
  - rewrite (proj2 (Nat.ltb_ge _ _)) by auto. destruct (grow_ok q s n pl F P) as (q1 & -> & F1). cbn [bind]. do 3 eexists. split; [reflexivity|]. split; [|exact F1].
    apply grows; auto. intros i I. apply (p_none _ _ (f_rep _ _ F)). rewrite (f_cap _ _ F). auto.
  - destruct P as (Z & N & S & LE). rewrite (proj2 (Nat.ltb_ge _ _)) by auto. destruct (shrink_ok q s n pl ms F N Z S LE) as (q1 & g & -> & M & F1). cbn [bind].
    do 3 eexists. split; [reflexivity|]. split; [|exact F1]. apply shrinks; auto.
Qed.
Lemma run_ok : forall n p q s h, Full q s -> disciplined p s h n -> exists q1 l s1, run p q h n = Ok (q1, l) /\ specs s l s1 /\ Full q1 s1.
Proof.
  induction n as [|n IH]; intros p q s h F D; cbn [run disciplined] in *.
  - exists q, [], s. split; auto. split; auto. constructor.
  - destruct (p h) as [o|]; [|exists q, [], s; split; auto; split; auto; constructor].
    destruct D as [P D]. destruct (step_ok q s o F P) as (q1 & x & s1 & ST & SP & F1). rewrite ST. cbn [bind].
    destruct (IH p q1 s1 (x :: h) F1 (D _ _ SP)) as (q2 & l & s2 & RU & SS & F2). rewrite RU. cbn [bind]. exists q2, ((o, x) :: l), s2. split; auto. split; auto. econstructor; eauto.
Qed.
Lemma start_full : forall prefs, Full (start prefs) nothing.
Proof. intros prefs. constructor; auto. constructor; cbn; auto; try lia; try constructor; intros; contradiction. Qed.

(** C37: a program that queues only threads that are not queued never makes the queue touch memory outside its array or fail a check, in any
    interleaving of pushes, pops, searches, growing and shrinking; what it returns is what the lists return: each lane is first in first out,
    growing keeps every lane, shrinking moves the threads of the dropped lanes, in order, to the ends of lanes that stay. *)
Theorem C37_history : forall prefs p n, disciplined p nothing [] n -> exists q l s, run p (start prefs) [] n = Ok (q, l) /\ specs nothing l s.
Proof. intros prefs p n D. destruct (run_ok n p _ _ [] (start_full prefs) D) as (q & l & s & RU & SS & _). eauto. Qed.

(** The lists keep every thread: those pushed are those popped and those still queued, with multiplicity. *)
Record wf (s : lists) : Prop := { w_size : size s = lanes (procs s) \/ size s = 0 /\ procs s = 0; w_none : forall i, size s <= i -> lane s i = [] }.
Definition upto (f : nat -> list nat) (n : nat) : list nat := concat (map f (seq 0 n)).
Lemma upto_put : forall f i n, i < n -> exists a b, upto f n = a ++ f i ++ b /\ forall l, upto (put f i l) n = a ++ l ++ b.
Proof.
  intros f i n I. exists (upto f i), (concat (map f (seq (S i) (n - S i)))). unfold upto.
  replace n with (i + S (n - S i)) at 1 by lia. split; [|intros l; replace n with (i + S (n - S i)) at 1 by lia]; rewrite seq_app, map_app, concat_app; cbn [plus seq map concat]; auto.
  rewrite put_same. f_equal; [|f_equal]; f_equal; apply map_ext_in; intros j J; apply in_seq in J; apply put_other; lia.
Qed.
Lemma upto_snoc : forall f i n t, i < n -> Permutation (upto (put f i (f i ++ [t])) n) (t :: upto f n).
Proof.
  intros f i n t I. destruct (upto_put f i n I) as (a & b & E & P). rewrite P, E. rewrite <- app_assoc. cbn [app].
  rewrite !app_assoc. symmetry. apply Permutation_middle.
Qed.
Lemma upto_ext : forall f g n, (forall i, i < n -> f i = g i) -> upto f n = upto g n.
Proof. intros f g n E. unfold upto. f_equal. apply map_ext_in. intros j J. apply in_seq in J. apply E. lia. Qed.
Lemma upto_more : forall f n m, n <= m -> (forall i, n <= i -> f i = []) -> upto f m = upto f n.
Proof.
  intros f n m L E. unfold upto. replace m with (n + (m - n)) by lia. rewrite seq_app, map_app, concat_app. cbn [plus].
  assert (X : forall k i, n <= i -> concat (map f (seq i k)) = []) by (induction k; intros i I; cbn [seq map concat]; auto; rewrite E, IHk by lia; auto).
  rewrite (X (m - n) n) by auto. apply app_nil_r.
Qed.
Lemma moved_perm : forall n f ts g, moved n f ts g -> Permutation (upto g n) (ts ++ upto f n).
Proof.
  intros n f ts g M. induction M; auto. rewrite IHM, upto_snoc by auto. cbn [app]. symmetry. apply Permutation_middle.
Qed.
Lemma moved_none : forall n f ts g, moved n f ts g -> (forall i, n <= i -> f i = []) -> forall i, n <= i -> g i = [].
Proof. intros n f ts g M. induction M; auto. intros E. apply IHM. intros j J. rewrite put_other by lia. auto. Qed.
Lemma took_keep : forall s i t s1, took s i t s1 -> wf s -> wf s1 /\ Permutation (all s) (t :: all s1).
Proof.
  intros s i t s1 [r I E] [W1 W2]. split.
  - constructor; cbn [size procs lane]; auto. intros j J. rewrite put_other by lia. auto.
  - destruct (upto_put (lane s) i (size s) I) as (a & b & X & P). unfold all; cbn [size lane]. fold (upto (lane s) (size s)). fold (upto (put (lane s) i r) (size s)). rewrite X, P, E.
    symmetry. apply Permutation_middle.
Qed.
Lemma push_keep : forall s i t, i < size s -> wf s -> wf (R (size s) (procs s) (put (lane s) i (lane s i ++ [t]))) /\
  Permutation (t :: all s) (all (R (size s) (procs s) (put (lane s) i (lane s i ++ [t])))).
Proof.
  intros s i t I [W1 W2]. split.
  - constructor; cbn [size procs lane]; auto. intros j J. rewrite put_other by lia. auto.
  - symmetry. apply upto_snoc. auto.
Qed.
Lemma spec_keep : forall s o s1 x, spec s o s1 x -> wf s -> wf s1 /\ Permutation (pushed o ++ all s) (popped x ++ all s1).
Proof.
  intros s o s1 x H W. destruct H; cbn [pushed popped app]; auto; try (eapply took_keep; eauto; fail).
  - apply push_keep; auto.
  - apply push_keep; auto. destruct (w_size _ W) as [E|[_ E]]; [rewrite E; unfold lanes; lia|lia].
  - destruct W as [W1 W2]. assert (SL : size s <= Nat.max (2 * n) 2) by (destruct W1 as [E|[E _]]; rewrite E; unfold lanes; lia). split.
    + constructor; cbn [size procs lane]; auto. intros i I. apply H1. lia.
    + unfold all; cbn [size lane]. fold (upto f (Nat.max (2 * n) 2)). rewrite (upto_more f (size s)) by auto. rewrite (upto_ext f (lane s)) by auto. auto.
  - destruct W as [W1 W2]. assert (FN : forall i, c <= i -> (if i <? c then lane s i else []) = []) by (intros i I; rewrite (proj2 (Nat.ltb_ge _ _)) by auto; auto). split.
    + constructor; cbn [size procs lane]; auto. eapply moved_none; eauto.
    + unfold all; cbn [size lane]. fold (upto g c). rewrite (moved_perm _ _ _ _ H0). rewrite (upto_ext _ (lane s)) by (intros i I; rewrite (proj2 (Nat.ltb_lt _ _)) by auto; auto).
      destruct (Nat.le_gt_cases c (size s)) as [L|L].
      * replace (size s) with (c + (size s - c)) at 1 by lia. rewrite seq_app, map_app, concat_app. cbn [plus]. apply Permutation_app_comm.
      * replace (size s - c) with 0 by lia. cbn [seq map concat app]. rewrite (upto_more (lane s) (size s)) by (auto; lia). auto.
Qed.
Lemma specs_keep : forall s l s1, specs s l s1 -> wf s -> Permutation (concat (map (fun e => pushed (fst e)) l) ++ all s) (concat (map (fun e => popped (snd e)) l) ++ all s1).
Proof.
  intros s l s1 H. induction H; intros W; cbn [map concat app fst snd]; auto. destruct (spec_keep _ _ _ _ H W) as [W1 P]. specialize (IHspecs W1).
  rewrite <- app_assoc. rewrite (Permutation_app_comm (concat _)), app_assoc, P. rewrite <- !app_assoc. rewrite (Permutation_app_comm (all s1)). rewrite IHspecs. auto.
Qed.
Theorem C37_conserved : forall l s, specs nothing l s -> Permutation (concat (map (fun e => pushed (fst e)) l)) (concat (map (fun e => popped (snd e)) l) ++ all s).
Proof.
  intros l s H. assert (W : wf nothing) by (constructor; cbn; auto). pose proof (specs_keep _ _ _ H W) as P. change (all nothing) with (@nil nat) in P. rewrite app_nil_r in P. auto.
Qed.

(** What other processors read of a lane without its lock (is_empty, the time stamp) says whether the lane has threads, and no thread is in two places. *)
Theorem C37_lanes : forall prefs p n, disciplined p nothing [] n -> exists q l s, run p (start prefs) [] n = Ok (q, l) /\ specs nothing l s /\
  (forall i, i < size s -> (is_empty q i = true <-> lane s i = []) /\ (ts (anchor q i) = MAX <-> lane s i = [])) /\
  (forall i j t, In t (lane s i) -> In t (lane s j) -> i = j) /\ forall i, NoDup (lane s i).
Proof.
  intros prefs p n D. destruct (run_ok n p _ _ [] (start_full prefs) D) as (q & l & s & RU & SS & F). exists q, l, s. split; auto. split; auto. split.
  - intros i I. pose proof (f_rep _ _ F) as RP. assert (IC : i < cap q) by (rewrite (f_cap _ _ F); auto). split; [apply empty_iff; auto|]. apply (chain_ts (rdy q)). apply (p_chain _ _ RP); auto.
  - split; [apply (p_disj _ _ (f_rep _ _ F))|apply (p_nodup _ _ (f_rep _ _ F))].
Qed.

(** A search that finds nothing has seen every lane empty, if its random start leaves room below 2^32 or the number of lanes divides 2^32. *)
Lemma covers : forall off n i, (0 <= off)%Z -> (off + Z.of_nat n <= 2 ^ 32 \/ 2 ^ 32 mod Z.of_nat n = 0)%Z -> i < n -> exists j, j < n /\ lane_at off n j = i.
Proof.
  intros off n i O H I. assert (NP : (0 < Z.of_nat n)%Z) by lia. exists (Z.to_nat ((Z.of_nat i - off) mod Z.of_nat n)).
  pose proof (Z.mod_pos_bound (Z.of_nat i - off) (Z.of_nat n) NP) as B. split; [lia|]. unfold lane_at. rewrite Z2Nat.id by lia.
  assert (E : (u32 (off + (Z.of_nat i - off) mod Z.of_nat n) mod Z.of_nat n = Z.of_nat i)%Z); [|rewrite E; lia]. unfold u32. destruct H as [H|H].
  - rewrite (Z.mod_small _ (2 ^ 32)) by lia. rewrite Zplus_mod_idemp_r. replace (off + (Z.of_nat i - off))%Z with (Z.of_nat i) by lia. apply Z.mod_small. lia.
  - rewrite <- Znumtheory.Zmod_div_mod by (try lia; apply Znumtheory.Zmod_divide; lia). rewrite Zplus_mod_idemp_r. replace (off + (Z.of_nat i - off))%Z with (Z.of_nat i) by lia. apply Z.mod_small. lia.
Qed.
Theorem C37_search : forall prefs p n off, disciplined p nothing [] n -> (0 <= off)%Z -> exists q l s, run p (start prefs) [] n = Ok (q, l) /\ specs nothing l s /\
  ((off + Z.of_nat (size s) <= 2 ^ 32 \/ 2 ^ 32 mod Z.of_nat (size s) = 0)%Z -> (exists q1, step q (Search off) = Ok (q1, None)) <-> all s = []).
Proof.
  intros prefs p n off D O. destruct (run_ok n p _ _ [] (start_full prefs) D) as (q & l & s & RU & SS & F). exists q, l, s. split; auto. split; auto. intros H.
  assert (AE : all s = [] <-> forall i, i < size s -> lane s i = []).
  { unfold all. rewrite concat_nil_Forall, Forall_map, Forall_forall. split; intros X i I; apply X; [apply in_seq; lia|apply in_seq in I; lia]. }
  rewrite AE. cbn [step]. rewrite (f_count _ _ F). destruct (search_ok (size s) q s off 0 F) as [[E P1]|(w & t & q1 & s1 & TK & P1 & F1)]; [lia| |]; rewrite P1.
  - split; eauto. intros _ i I. destruct (covers off (size s) i O H I) as (j & J & <-). apply E. lia.
  - split; [intros [q2 X]; discriminate|]. intros X. destruct TK as [r I E]. rewrite X in E by auto. discriminate.
Qed.
(** Otherwise a thread may be missed: with three processors and a start of 2^32 - 1 the index wraps and lane 5 is never looked at. *)
Definition pl0 : place := P 7 (fun _ => L (Some 99) 5%Z) (fun _ => T 3).
Definition missing : program := fun h => nth_error [Grow 3 pl0; PushLocal 2 1 8 20%Z] (length h).
Lemma missing_disciplined : disciplined missing nothing [] 2.
Proof.
  cbn. split; [lia|]. intros s1 x H. inversion H; subst. cbn in *. split; [|auto]. split; [lia|]. split; [|unfold sensible; lia].
  intros (i & I & J). cbn in *. rewrite H6 in J by lia. auto.
Qed.
Definition show {X} (r : res (queue * X)) : option X := match r with Ok (_, x) => Some x | _ => None end.
Lemma show_some : forall X (r : res (queue * X)) x, show r = Some x -> exists q, r = Ok (q, x).
Proof. intros X [[q y]| | | |] x H; try discriminate H. cbn in H. exists q. congruence. Qed.
Lemma missing_run : show (run missing (start (fun _ => 0%Z)) [] 2) = Some [(Grow 3 pl0, None); (PushLocal 2 1 8 20%Z, None)].
Proof. vm_compute. reflexivity. Qed.
Lemma missing_found : show (bind (run missing (start (fun _ => 0%Z)) [] 2) (fun e => step (fst e) (Search (2 ^ 32 - 1)))) = Some None.
Proof. vm_compute. reflexivity. Qed.
Lemma missing_spec : specs nothing [(Grow 3 pl0, None); (PushLocal 2 1 8 20%Z, None)] (R 6 3 (put (fun _ => []) 5 [8])).
Proof.
  eapply specs_cons; [apply (grows nothing 3 _ (fun _ => [])); cbn [procs size lane nothing]; auto; lia|]. eapply specs_cons; [|apply specs_nil].
  apply (push_local (R 6 3 (fun _ => [])) 2 1 8 20%Z 5); cbn [procs size lane]; [lia|lia| |unfold sensible; lia]. intros (i & _ & []).
Qed.
Lemma missing_steps : exists q, run missing (start (fun _ => 0%Z)) [] 2 = Ok (q, [(Grow 3 pl0, None); (PushLocal 2 1 8 20%Z, None)]) /\ exists q1, step q (Search (2 ^ 32 - 1)) = Ok (q1, None).
Proof.
  destruct (show_some _ _ _ missing_run) as [q E]. destruct (show_some _ _ _ missing_found) as [q1 E1]. exists q. split; [exact E|]. exists q1.
  revert E E1. generalize (run missing (start (fun _ => 0%Z)) [] 2). intros r -> E1. cbn [bind fst] in E1. exact E1.
Qed.
Theorem C37_search_refuted : exists p n q l s off, disciplined p nothing [] n /\ run p (start (fun _ => 0%Z)) [] n = Ok (q, l) /\ specs nothing l s /\ all s = [8] /\
  (0 <= off < 2 ^ 32)%Z /\ exists q1, step q (Search off) = Ok (q1, None).
Proof.
  destruct missing_steps as (q & E & E1).
  exists missing, 2, q, [(Grow 3 pl0, None); (PushLocal 2 1 8 20%Z, None)], (R 6 3 (put (fun _ => []) 5 [8])), (2 ^ 32 - 1)%Z. split; [apply missing_disciplined|]. split; [exact E|].
  split; [apply missing_spec|]. split; [reflexivity|]. split; [lia|exact E1].
Qed.

(** Examples: three threads in two lanes; a lane is first in first out; shrinking moves threads of dropped lanes *)
Definition script (l : list op) : program := fun h => nth_error l (length h).
Example fifo : option_map (map snd) (show (run (script [Grow 1 pl0; PushLocal 0 0 4 20%Z; PushLocal 0 0 5 21%Z; PushLocal 0 1 6 22%Z; TryPop 0; PopFast 0 0 None; PopFast 0 0 None; PopFast 0 0 None]) (start (fun _ => 0%Z)) [] 8))
  = Some [None; None; None; None; Some 4; Some 5; Some 6; None].
Proof. vm_compute. reflexivity. Qed.
Example resize : option_map (map snd) (show (run (script [Grow 1 pl0; PushLocal 0 0 4 20%Z; Grow 2 (P 9 (fun _ => L (Some 3) 1%Z) (fun _ => T 8)); PushLocal 1 1 5 21%Z; PushLocal 1 1 6 22%Z; PushLocal 1 0 7 23%Z;
    Shrink 1 pl0 [(1, 30); (0, 31); (1, 32)]%Z; TryPop 0; TryPop 0; TryPop 1; TryPop 1; Search 3]) (start (fun _ => 0%Z)) [] 12))
  = Some [None; None; None; None; None; None; None; Some 4; Some 5; Some 7; Some 6; None].
Proof. vm_compute. reflexivity. Qed.
Example twice : run (script [Grow 1 pl0; PushLocal 0 0 4 20%Z; PushLocal 0 0 5 20%Z; PushLocal 0 1 4 21%Z]) (start (fun _ => 0%Z)) [] 4 = Check.
Proof. vm_compute. reflexivity. Qed.
Print Assumptions C37_history.
Print Assumptions C37_conserved.
Print Assumptions C37_lanes.
Print Assumptions C37_search.
Print Assumptions C37_search_refuted.
