From Coq Require Import ZArith List Bool Arith Lia ZifyBool.
From Verif.Semaphore Require Import Model Spec.
Import ListNotations.
Open Scope Z_scope.

Definition rel (s : sem) (a : asem) : Prop :=
  waiting s = blocked a /\ count s = Z.of_nat (permits a) - Z.of_nat (length (blocked a)) /\ (permits a = 0%nat \/ blocked a = []).
Ltac crush := unfold rel in *; cbn [fst snd waiting count permits blocked length app] in *; rewrite ?app_length in *; cbn [length] in *.

Lemma P_rel me s a : rel s a -> rel (fst (P me s)) (fst (aP me a)) /\ snd (P me s) = snd (aP me a).
Proof.
  intros (H1 & H2 & H3). unfold P, aP. destruct (permits a) as [|n] eqn:E.
  - destruct (Z.ltb_spec (count s - 1) 0); [|lia]. crush. split; auto. rewrite H1. split; auto. split; auto. lia.
  - destruct H3 as [|H3]; [discriminate|]. destruct (Z.ltb_spec (count s - 1) 0); rewrite H3 in *; cbn [length] in *; [lia|].
    crush. repeat split; auto. lia.
Qed.
Lemma try_rel s a : rel s a -> rel (fst (try_P s)) (fst (atry a)) /\ snd (try_P s) = snd (atry a).
Proof.
  intros (H1 & H2 & H3). unfold try_P, atry. destruct (permits a) as [|n] eqn:E.
  - destruct (Z.leb_spec (count s) 0); [|lia]. crush. rewrite E. auto.
  - destruct H3 as [|H3]; [discriminate|]. rewrite H3 in *; cbn [length] in *. destruct (Z.leb_spec (count s) 0); [lia|].
    crush. repeat split; auto. lia.
Qed.
Lemma V_rel s a : rel s a -> rel (fst (fst (V s))) (fst (fst (aV a))) /\ snd (fst (V s)) = snd (fst (aV a)) /\ snd (V s) = snd (aV a).
Proof.
  intros (H1 & H2 & H3). unfold V, aV. rewrite H1. destruct (blocked a) as [|t r] eqn:E; cbn [length] in *.
  - destruct (Z.leb_spec (count s + 1) 0); [lia|]. crush. repeat split; auto. lia.
  - destruct H3 as [H3|]; [|discriminate]. destruct (Z.leb_spec (count s + 1) 0); [|lia]. cbn [pop_head]. crush. repeat split; auto. lia.
Qed.
Lemma self_rel me s a : rel s a ->
  let b := aP me (fst (fst (aV a))) in
  rel (fst (fst (P_self me s))) (fst b) /\ snd (fst (P_self me s)) = snd b /\ snd (P_self me s) = snd (aV a).
Proof.
  intros (H1 & H2 & H3). unfold P_self, aV, aP. rewrite H1. destruct (blocked a) as [|t r] eqn:E; cbn [length permits blocked fst snd] in *.
  - destruct (Z.ltb_spec (count s) 0); [lia|]. crush. repeat split; auto.
  - destruct H3 as [H3|]; [|discriminate]. rewrite H3. destruct (Z.ltb_spec (count s) 0); [|lia]. cbn [pop_head]. crush. repeat split; auto. lia.
Qed.
Definition Rel (w : sys) (v : asys) := forall i, rel (w i) (v i).
Lemma put_rel w v i s a : Rel w v -> rel s a -> Rel (put w i s) (aput v i a).
Proof. intros H Hs j. unfold put, aput. destruct (Nat.eqb j i); auto. Qed.
Lemma step_rel t w v o : Rel w v -> Rel (fst (step t w o)) (fst (astep t v o)) /\ snd (step t w o) = snd (astep t v o).
Proof.
  intros H. destruct o as [i|i|i|i l]; cbn [step astep].
  - destruct (P_rel t _ _ (H i)) as [A B]. destruct (P t (w i)), (aP t (v i)); cbn [fst snd] in *. subst. split; auto. apply put_rel; auto.
  - destruct (try_rel _ _ (H i)) as [A B]. destruct (try_P (w i)), (atry (v i)); cbn [fst snd] in *. subst. split; auto. apply put_rel; auto.
  - destruct (V_rel _ _ (H i)) as (A & B & C). destruct (V (w i)) as [[]], (aV (v i)) as [[]]; cbn [fst snd] in *. subst. split; auto. apply put_rel; auto.
  - destruct (Nat.eqb_spec i l) as [->|Hne].
    + destruct (self_rel t _ _ (H l)) as (A & B & C). destruct (P_self t (w l)) as [[s r] h]. destruct (aV (v l)) as [[sl r'] h'] eqn:EV; cbn [fst snd] in *. subst.
      replace (aput v l sl l) with sl by (unfold aput; rewrite Nat.eqb_refl; auto). destruct (aP t sl) as [s' r''] eqn:EP; cbn [fst snd] in *. subst. split; auto.
      intros j. unfold put, aput. destruct (Nat.eqb j l); auto.
    + destruct (V_rel _ _ (H l)) as (A & B & C). destruct (V (w l)) as [[sl r] h], (aV (v l)) as [[sl' r'] h']; cbn [fst snd] in *. subst.
      destruct (P_rel t (put w l sl i) (aput v l sl' i)) as [D E].
      { unfold put, aput. destruct (Nat.eqb_spec i l); [congruence|apply H]. }
      destruct (P t (put w l sl i)), (aP t (aput v l sl' i)); cbn [fst snd] in *. subst. split; auto. apply put_rel; auto. apply put_rel; auto.
Qed.
Lemma run_rel os : forall w v, Rel w v -> Rel (fst (run w os)) (fst (arun v os)) /\ snd (run w os) = snd (arun v os).
Proof.
  induction os as [|[t o] os IH]; intros w v H; [split; auto|]. cbn [run arun].
  destruct (step_rel t w v o H) as [A B]. destruct (step t w o) as [w1 x], (astep t v o) as [v1 y]; cbn [fst snd] in *. subst.
  destruct (IH w1 v1 A) as [C D]. destruct (run w1 os), (arun v1 os); cbn [fst snd] in *. subst. auto.
Qed.

(** conservation on the abstract system *)
Lemma log_app {B} (f : tid -> op -> bool * list tid -> list B) t o x r xr : log f ((t, o) :: r) (x :: xr) = f t o x ++ log f r xr.
Proof. reflexivity. Qed.
Lemma astep_ledger t v o i : let x := snd (astep t v o) in let v' := fst (astep t v o) in
  (permits (v' i) + gets_here i o x + length (wakes_here i o x) = permits (v i) + releases_op i o)%nat /\
  blocked (v i) ++ blocks_here i t o x = wakes_here i o x ++ blocked (v' i).
Proof.
  destruct o as [j|j|j|j l]; cbn [astep]; unfold gets_here, wakes_here, blocks_here, acquires_from, may_block, releases_op.
  - unfold aP. destruct (permits (v j)) as [|n] eqn:E; cbn [fst snd]; unfold aput; rewrite (Nat.eqb_sym j i);
      destruct (Nat.eqb_spec i j) as [->|]; cbn [andb negb fst snd permits blocked length app Nat.ltb Nat.leb]; rewrite ?app_nil_r; split; auto; lia.
  - unfold atry. destruct (permits (v j)) as [|n] eqn:E; cbn [fst snd]; unfold aput; rewrite (Nat.eqb_sym j i);
      destruct (Nat.eqb_spec i j) as [->|]; cbn [andb negb fst snd permits blocked length app Nat.ltb Nat.leb]; rewrite ?app_nil_r; split; auto; lia.
  - unfold aV. destruct (blocked (v j)) as [|h r] eqn:E; cbn [fst snd]; unfold aput; rewrite (Nat.eqb_sym j i);
      destruct (Nat.eqb_spec i j) as [->|]; cbn [andb negb fst snd permits blocked length app Nat.ltb Nat.leb]; rewrite ?app_nil_r, ?E; split; auto; lia.
  - unfold aV. destruct (blocked (v l)) as [|h r] eqn:E; cbn [fst snd];
    unfold aP; destruct (Nat.eqb_spec j l) as [->|Hjl].
    + unfold aput. rewrite !Nat.eqb_refl. cbn [permits blocked fst snd]. rewrite (Nat.eqb_sym l i). destruct (Nat.eqb_spec i l) as [->|];
      cbn [andb negb fst snd permits blocked length app Nat.ltb Nat.leb]; rewrite ?app_nil_r, ?E; split; auto; lia.
    + unfold aput. rewrite (proj2 (Nat.eqb_neq j l)) by auto. destruct (permits (v j)) as [|n0] eqn:Ep; cbn [fst snd];
      rewrite (Nat.eqb_sym l i), (Nat.eqb_sym j i); destruct (Nat.eqb_spec i j) as [->|]; destruct (Nat.eqb_spec j l); try congruence;
      try (destruct (Nat.eqb_spec i l) as [->|]);
      cbn [andb negb fst snd permits blocked length app Nat.ltb Nat.leb]; rewrite ?app_nil_r, ?E, ?Ep; split; auto; lia.
    + unfold aput. rewrite !Nat.eqb_refl. cbn [permits blocked fst snd]. destruct (permits (v l)) eqn:Ep; cbn [fst snd]; rewrite (Nat.eqb_sym l i); destruct (Nat.eqb_spec i l) as [->|];
      cbn [andb negb fst snd permits blocked length app Nat.ltb Nat.leb]; rewrite ?app_nil_r, ?E, ?Ep; split; auto; lia.
    + unfold aput. rewrite (proj2 (Nat.eqb_neq j l)) by auto. destruct (permits (v j)) as [|n0] eqn:Ep; cbn [fst snd];
      rewrite (Nat.eqb_sym l i), (Nat.eqb_sym j i); destruct (Nat.eqb_spec i j) as [->|]; destruct (Nat.eqb_spec j l); try congruence;
      try (destruct (Nat.eqb_spec i l) as [->|]);
      cbn [andb negb fst snd permits blocked length app Nat.ltb Nat.leb]; rewrite ?app_nil_r, ?E, ?Ep; split; auto; lia.
Qed.
Lemma arun_ledger i os : forall v, let xs := snd (arun v os) in
  (permits (fst (arun v os) i) + completed i os xs = permits (v i) + released i os)%nat /\
  blocked (v i) ++ blocked_log i os xs = woken_log i os xs ++ blocked (fst (arun v os) i).
Proof.
  induction os as [|[t o] os IH]; intros v; cbn zeta; [cbn; rewrite app_nil_r; auto with arith|].
  cbn [arun]. destruct (astep_ledger t v o i) as [A B]. destruct (astep t v o) as [v1 x]; cbn [fst snd] in *.
  destruct (IH v1) as [C D]. destruct (arun v1 os) as [v2 xs]; cbn [fst snd] in *.
  unfold completed, got, released, woken_log, blocked_log in *. rewrite !log_app. cbn [flat_map snd].
  rewrite !app_length, !repeat_length. split; [lia|].
  rewrite app_assoc, B, <- !app_assoc. f_equal. exact D.
Qed.

Lemma init_rel c : (forall i, 0 <= c i) -> Rel (init c) (fun i => A (Z.to_nat (c i)) []).
Proof. intros H i. unfold rel, init. cbn. specialize (H i). repeat split; auto. lia. Qed.

Lemma run_ledger c os i : (forall j, 0 <= c j) -> let w := fst (run (init c) os) in let xs := snd (run (init c) os) in
  blocked_log i os xs = woken_log i os xs ++ waiting (w i) /\
  Z.of_nat (completed i os xs) = c i + Z.of_nat (released i os) - (count (w i) + Z.of_nat (length (waiting (w i)))) /\
  0 <= count (w i) + Z.of_nat (length (waiting (w i))) /\
  (waiting (w i) <> [] <-> count (w i) < 0) /\ (waiting (w i) <> [] -> count (w i) = - Z.of_nat (length (waiting (w i)))).
Proof.
  intros Hc w xs. destruct (run_rel os _ _ (init_rel c Hc)) as [R E]. destruct (arun_ledger i os (fun i => A (Z.to_nat (c i)) [])) as [L1 L2].
  fold w in R. fold xs in E. rewrite <- E in L1, L2. specialize (R i). set (a := fst (arun _ os) i) in *. destruct R as (R1 & R2 & R3).
  cbn [permits blocked app] in *. rewrite L2, R1. specialize (Hc i). split; auto. split; [lia|]. split; [lia|].
  destruct (blocked a) as [|t r] eqn:Eb; cbn [length] in *.
  - split; [split; [congruence|lia]|congruence].
  - destruct R3 as [R3|]; [|discriminate]. split; [split; [lia|discriminate]|lia].
Qed.

(** bulk release *)
Fixpoint V_times (n : nat) (s : sem) : sem * list tid :=
  match n with O => (s, []) | S n' => let '(s1, _, h) := V s in let (s2, hs) := V_times n' s1 in (s2, h ++ hs) end.
Lemma V_times_spec n : forall s, - Z.of_nat (length (waiting s)) <= count s -> (waiting s <> [] -> count s = - Z.of_nat (length (waiting s))) ->
  V_times n s = (S_ (count s + Z.of_nat n) (skipn n (waiting s)), firstn n (waiting s)).
Proof.
  induction n as [|n IH]; intros [c q] H1 H2; cbn [waiting count] in *; [cbn; rewrite Z.add_0_r; auto|].
  cbn [V_times]. unfold V. cbn [waiting count]. destruct q as [|t q]; cbn [length] in *.
  - destruct (Z.leb_spec (c + 1) 0); [lia|]. rewrite IH by (cbn; try lia; congruence). cbn [waiting count].
    rewrite !skipn_nil, !firstn_nil. cbn. do 2 f_equal. lia.
  - specialize (H2 ltac:(discriminate)). destruct (Z.leb_spec (c + 1) 0); [|lia]. cbn [pop_head].
    rewrite IH by (cbn; intros; lia). cbn [waiting count skipn firstn app]. do 2 f_equal. lia.
Qed.
Lemma Vn_ok s n : count s = - Z.of_nat (length (waiting s)) -> Z.of_nat (length (waiting s)) <= n < 2 ^ 64 ->
  Vn s n = (fst (V_times (Z.to_nat n) s), n, snd (V_times (Z.to_nat n) s)).
Proof.
  intros H1 H2. rewrite V_times_spec by lia. unfold Vn. rewrite Z.mod_small by lia. rewrite Z.max_r by lia. cbn [fst snd].
  rewrite Z2Nat.id by lia. reflexivity.
Qed.
