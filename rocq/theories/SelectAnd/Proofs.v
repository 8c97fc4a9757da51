From Coq Require Import List Bool Arith ZArith Lia ZifyBool.
From Verif.SelectAnd Require Import Model Spec.
Open Scope nat_scope.
Ltac sf := cbn [st nd cnt tok ran at_ goto set_st set_nd add_c set_tok set_ran] in *.
Lemma upd_same : forall {X} (f : nat -> X) i x, upd f i x i = x.
Proof. intros. unfold upd. rewrite Nat.eqb_refl. reflexivity. Qed.
Lemma upd_other : forall {X} (f : nat -> X) i x j, j <> i -> upd f i x j = f j.
Proof. intros. unfold upd. apply Nat.eqb_neq in H. rewrite H. reflexivity. Qed.
(** satisfied, counted, and not run *)
Definition left (s : state) (i : nat) : Z :=
  match st s i with
  | SAT => match nd s i with Add => 0 | _ => match at_ s with RegAdd k => if (k =? i)%nat then 0 else 1 | _ => 1 end end
  | _ => 0
  end%Z.
Fixpoint lefts (s : state) (k : nat) : Z := match k with 0 => 0%Z | S k => (left s k + lefts s k)%Z end.
Lemma left_pos : forall s i, (0 <= left s i <= 1)%Z.
Proof. intros s i. unfold left. destruct (st s i); try lia. destruct (nd s i); try lia; destruct (at_ s); try lia; destruct (_ =? i); lia. Qed.
Lemma lefts_pos : forall s k, (0 <= lefts s k)%Z.
Proof. intros s k. induction k; cbn [lefts]; [lia|]. pose proof (left_pos s k). lia. Qed.
Lemma lefts_mono : forall s a b, a <= b -> (lefts s a <= lefts s b)%Z.
Proof. intros s a b L. induction L; [lia|]. cbn [lefts]. pose proof (left_pos s m). lia. Qed.
Lemma lefts_in : forall s i k, i < k -> (left s i <= lefts s k)%Z.
Proof. intros s i k L. pose proof (lefts_mono s (S i) k L). cbn [lefts] in H. pose proof (lefts_pos s i). lia. Qed.
Lemma lefts_le : forall s s1 k, (forall i, i < k -> (left s1 i <= left s i)%Z) -> (lefts s1 k <= lefts s k)%Z.
Proof. intros s s1 k H. induction k; cbn [lefts]; [lia|]. pose proof (H k (Nat.lt_succ_diag_r k)). assert (lefts s1 k <= lefts s k)%Z; [|lia]. apply IHk. intros i L. apply H. lia. Qed.
Lemma lefts_le1 : forall s s1 j k, (forall i, i < k -> i <> j -> (left s1 i <= left s i)%Z) -> (lefts s1 k <= lefts s k + 1)%Z.
Proof.
  intros s s1 j k H. induction k; cbn [lefts]; [lia|]. destruct (Nat.eq_dec k j) as [->|N].
  - assert (lefts s1 j <= lefts s j)%Z; [|pose proof (left_pos s j); pose proof (left_pos s1 j); lia]. apply lefts_le. intros i L. apply H; lia.
  - assert (left s1 k <= left s k)%Z; [apply H; lia|]. assert (lefts s1 k <= lefts s k + 1)%Z; [|lia]. apply IHk. intros i L M. apply H; lia.
Qed.
Lemma lefts_zero : forall s k, lefts s k = 0%Z -> forall i, i < k -> left s i = 0%Z.
Proof. intros s k H i L. pose proof (lefts_in s i k L). pose proof (left_pos s i). lia. Qed.
(** how much of the clauses the counter is known to cover *)
Definition upto (c : cfg) (b : bool) (p : pc) : nat :=
  match p with
  | Check => if b then 0 else n c
  | Reg _ | RegAdd _ | Dec => n c
  | Scan i | Body i | Unr i => Nat.min i (n c)
  | _ => 0
  end.
(** the clauses whose registering has begun *)
Definition regd (c : cfg) (p : pc) : nat := match p with Reg k => k | RegAdd k => k + 1 | _ => n c end.
(** the clauses the finally clause has dealt with *)
Definition find (c : cfg) (p : pc) : nat := match p with Fin k | FinU k | FinB k => k | Done => n c | _ => 0 end.
(** the clause is closed: the resource knows it no more *)
Definition closed (c : cfg) (s : state) (i : nat) : Prop := (st s i = RUN /\ at_ s <> Unr i) \/ i < find c (at_ s) \/ at_ s = FinB i.
Record Inv (c : cfg) (s : state) : Prop := {
  I_reg : regd c (at_ s) <= n c;
  I_idx : match at_ s with RegAdd i | Body i | Unr i | FinU i | FinB i => i < n c /\ en c i = true | Fin i => i <= n c | _ => True end;
  I_new : forall i, regd c (at_ s) <= i \/ en c i = false -> nd s i = NotReg /\ ran s i = 0;
  I_unr : forall i, en c i = true -> regd c (at_ s) <= i -> st s i = UNSAT;
  I_dis : forall i, en c i = false -> st s i = (if pre c i then RUN else UNSAT);
  I_nd : forall i, en c i = true -> i < regd c (at_ s) ->
    match nd s i with
    | Listed | Cas => st s i = UNSAT
    | Off => st s i = UNSAT -> i < find c (at_ s)
    | _ => st s i <> UNSAT
    end;
  I_add : forall i, at_ s = RegAdd i -> nd s i = NotReg /\ st s i = SAT;
  I_body : forall i, at_ s = Body i -> st s i = SAT;
  I_unrd : forall i, at_ s = Unr i -> st s i = RUN;
  I_fin : forall i, at_ s = FinU i -> st s i <> RUN;
  I_finb : forall i, at_ s = FinB i -> st s i = SAT /\ kd c i = Channel;
  I_cnt : at_ s <> Park -> (lefts s (upto c (complete c s) (at_ s)) <= cnt s)%Z;
  I_park : at_ s = Park -> tok s = false -> (forall i, nd s i <> Wake) -> cnt s = (-1)%Z /\ lefts s (n c) = 0%Z;
  I_tok : tok s = true -> at_ s = Park /\ (0 <= cnt s)%Z /\ forall i, nd s i <> Wake;
  I_wake : forall i, nd s i = Wake -> at_ s = Park /\ (0 <= cnt s)%Z /\ tok s = false /\ forall j, nd s j = Wake -> j = i;
  I_prd : at_ s = Dec \/ at_ s = Park -> complete c s = false;
  I_end : els c = false -> match at_ s with Fin _ | FinU _ | FinB _ | Done => complete c s = true | _ => True end;
  I_els : match at_ s with ElseB => els c = true /\ complete c s = false | Check | Dec | Park => els c = false | _ => True end;
  I_ran : forall i, en c i = true -> ran s i =
    match st s i with UNSAT => 0 | RUN => 1 | SAT => match kd c i with Channel => if i <? find c (at_ s) then 1 else 0 | Future => 0 end end;
  I_cls : forall i, closed c s i -> kd c i = Channel -> busy (nd s i) = false /\ nd s i <> Listed }.
Lemma start_inv : forall c, Inv c (start c).
Proof.
  intros c. assert (L : forall k, lefts (start c) k = 0%Z).
  { induction k; [reflexivity|]. cbn [lefts]. rewrite IHk. unfold left, start. cbn [st]. destruct (negb (en c k) && pre c k); reflexivity. }
  constructor; unfold start; sf; cbn [regd find upto]; intros; try lia; try discriminate; auto.
  - rewrite H. reflexivity.
  - rewrite H. reflexivity.
  - unfold start in L. rewrite L. lia.
  - destruct H; discriminate.
  - rewrite H. reflexivity.
  - split; [reflexivity|discriminate].
Qed.

Lemma known : forall c s i, Inv c s -> nd s i <> NotReg -> en c i = true /\ i < regd c (at_ s) /\ i < n c.
Proof.
  intros c s i I N. pose proof (I_new _ _ I i) as A. pose proof (I_reg _ _ I). destruct (en c i) eqn:E; [|exfalso; apply N; apply A; auto].
  destruct (Nat.lt_ge_cases i (regd c (at_ s))); [|exfalso; apply N; apply A; auto]. repeat split; auto. lia.
Qed.
(** a step of the waker of clause i *)
Lemma waker_inv : forall c s s1 i, Inv c s -> at_ s1 = at_ s -> ran s1 = ran s -> (forall j, j <> i -> nd s1 j = nd s j) -> (forall j, j <> i -> st s1 j = st s j) ->
  nd s i <> NotReg -> nd s i <> Off -> nd s1 i <> NotReg -> nd s1 i <> Listed ->
  (st s1 i = st s i \/ (st s i = UNSAT /\ st s1 i = SAT)) ->
  match nd s1 i with Cas => st s1 i = UNSAT | _ => st s1 i <> UNSAT end ->
  (at_ s <> Park -> (lefts s1 (upto c (complete c s) (at_ s)) <= cnt s1)%Z) ->
  (at_ s = Park -> tok s1 = false -> (forall j, nd s1 j <> Wake) -> cnt s1 = (-1)%Z /\ lefts s1 (n c) = 0%Z) ->
  (tok s1 = true -> at_ s = Park /\ (0 <= cnt s1)%Z /\ forall j, nd s1 j <> Wake) ->
  (forall j, nd s1 j = Wake -> at_ s = Park /\ (0 <= cnt s1)%Z /\ tok s1 = false /\ forall k, nd s1 k = Wake -> k = j) ->
  Inv c s1.
Proof.
  intros c s s1 i I A R ND ST N1 N2 N3 N4 SI NI C1 C2 C3 C4. destruct (known _ _ _ I N1) as [E [G L]]. 
  assert (AL : closed c s i -> kd c i = Channel -> False).
  { intros Q K. destruct (I_cls _ _ I i Q K) as [B1 B2]. destruct (nd s i); try discriminate; congruence. }
  pose proof (I_unr _ _ I). pose proof (I_dis _ _ I).
  destruct I. 
  assert (RUNS : forall j, is_run (st s1 j) = is_run (st s j)).
  { intros j. destruct (Nat.eq_dec j i) as [->|X]; [|rewrite ST by auto; reflexivity]. destruct SI as [->|[-> ->]]; reflexivity. }
  assert (CS : complete c s1 = complete c s). { unfold complete. f_equal. apply map_ext. exact RUNS. }
  constructor; rewrite ?A, ?CS; auto.
  - intros j H1. destruct (Nat.eq_dec j i) as [->|X]; [destruct H1; [lia|congruence]|]. rewrite ND, R by auto. auto.
  - intros j H1 H2. destruct (Nat.eq_dec j i) as [->|X]; [lia|]. rewrite ST by auto. auto.
  - intros j H1. destruct (Nat.eq_dec j i) as [->|X]; [congruence|]. rewrite ST by auto. auto.
  - intros j H1 H2. destruct (Nat.eq_dec j i) as [->|X]; [|rewrite ST, ND by auto; exact (I_nd0 j H1 H2)]. destruct (nd s1 i); auto; try congruence.
  - intros j H1. destruct (Nat.eq_dec j i) as [->|X]; [|rewrite ST, ND by auto; auto]. destruct (I_add0 i H1). congruence.
  - intros j H1. destruct (Nat.eq_dec j i) as [->|X]; [|rewrite ST by auto; auto]. specialize (I_body0 i H1). destruct SI as [->|[K _]]; congruence.
  - intros j H1. destruct (Nat.eq_dec j i) as [->|X]; [|rewrite ST by auto; auto]. specialize (I_unrd0 i H1). destruct SI as [->|[K _]]; congruence.
  - intros j H1. destruct (Nat.eq_dec j i) as [->|X]; [|rewrite ST by auto; auto]. specialize (I_fin0 i H1). destruct SI as [->|[_ K]]; congruence.
  - intros j H1. destruct (Nat.eq_dec j i) as [->|X]; [|rewrite ST by auto; auto]. specialize (I_finb0 i H1). destruct SI as [->|[K _]]; auto. destruct I_finb0; congruence.
  - intros j H1. destruct (Nat.eq_dec j i) as [->|X]; [|rewrite ST, R by auto; auto]. rewrite R, I_ran0 by auto. destruct SI as [->|[K ->]]; auto. rewrite K.
    destruct (kd c i) eqn:KD; auto. destruct (Nat.ltb_spec i (find c (at_ s))); auto. exfalso. apply AL; auto. right. left. auto.
  - intros j H1 H2. destruct (Nat.eq_dec j i) as [->|X].
    + exfalso. apply AL; auto. unfold closed in *. rewrite A in H1. destruct SI as [Q|[Q1 Q2]]; [rewrite Q in H1; auto|]. rewrite Q2 in H1. destruct H1 as [[? _]|H1]; [discriminate|]. auto.
    + rewrite ND by auto. apply I_cls0; auto. unfold closed in *. rewrite A, ST in H1 by auto. auto.
Qed.
Lemma step_waker : forall c s a s1, Inv c s -> a <> Go -> a <> Now -> step c s a = Some s1 -> Inv c s1.
Proof.
  intros c s a s1 I N1 N2 H. destruct a as [| |i|i]; try congruence; cbn [step] in H.
  - destruct (nd s i) eqn:E; try discriminate. injection H as <-. destruct (known c s i I) as [EN [RG LT]]; [congruence|].
    pose proof (I_nd _ _ I i EN RG) as U. rewrite E in U.
    assert (LL : forall k, lefts (set_nd s i Cas) k = lefts s k).
    { induction k; cbn [lefts]; [reflexivity|]. rewrite IHk. f_equal. unfold left. sf. destruct (Nat.eq_dec k i) as [->|N]; [rewrite U; reflexivity|rewrite upd_other by auto; reflexivity]. }
    assert (W : forall j, upd (nd s) i Cas j = Wake <-> nd s j = Wake).
    { intros j. destruct (Nat.eq_dec j i) as [->|N]; [rewrite upd_same|rewrite upd_other by auto; tauto]. split; congruence. }
    apply waker_inv with (s := s) (i := i); sf; rewrite ?upd_same; auto; try congruence.
    + intros; apply upd_other; auto.
    + rewrite LL. apply (I_cnt _ _ I).
    + rewrite LL. intros A B C. apply (I_park _ _ I); auto. intros j J. apply (C j). apply W; auto.
    + intros T. destruct (I_tok _ _ I T) as [A [B C]]. repeat split; auto. intros j J. apply W in J. apply (C j J).
    + intros j J. apply W in J. destruct (I_wake _ _ I j J) as [A [B [C D]]]. repeat split; auto. intros k K. apply D. apply W; auto.
  - destruct (nd s i) eqn:E; try discriminate; destruct (known c s i I) as [EN [RG LT]]; try congruence; pose proof (I_nd _ _ I i EN RG) as U; rewrite E in U.
    + rewrite U in H. injection H as <-.
      assert (LL : forall k, lefts (set_nd (set_st s i SAT) i Add) k = lefts s k).
      { induction k; cbn [lefts]; [reflexivity|]. rewrite IHk. f_equal. unfold left. sf. destruct (Nat.eq_dec k i) as [->|N]; [rewrite U, !upd_same; reflexivity|rewrite !upd_other by auto; reflexivity]. }
      assert (W : forall j, upd (nd s) i Add j = Wake <-> nd s j = Wake).
      { intros j. destruct (Nat.eq_dec j i) as [->|N]; [rewrite upd_same|rewrite upd_other by auto; tauto]. split; congruence. }
      apply waker_inv with (s := s) (i := i); sf; rewrite ?upd_same; auto; try congruence.
      * intros; apply upd_other; auto.
      * intros; apply upd_other; auto.
      * rewrite LL. apply (I_cnt _ _ I).
      * rewrite LL. intros A B C. apply (I_park _ _ I); auto. intros j J. apply (C j). apply W; auto.
      * intros T. destruct (I_tok _ _ I T) as [A [B C]]. repeat split; auto. intros j J. apply W in J. apply (C j J).
      * intros j J. apply W in J. destruct (I_wake _ _ I j J) as [A [B [C D]]]. repeat split; auto. intros k K. apply D. apply W; auto.
    + injection H as <-. set (nx := if (cnt s + 1 =? 0)%Z then Wake else Off).
      assert (NX : nx = Wake \/ nx = Off) by (unfold nx; destruct (_ =? _)%Z; auto).
      assert (LL : forall k, (lefts (set_nd (add_c s 1) i nx) k <= lefts s k + 1)%Z).
      { intros k. apply lefts_le1 with (j := i). intros j _ N. unfold left. sf. rewrite upd_other by auto. lia. }
      assert (W : forall j, j <> i -> upd (nd s) i nx j = nd s j) by (intros; apply upd_other; auto).
      assert (CP : (cnt s + 1 = 0)%Z -> at_ s = Park /\ tok s = false /\ forall j, nd s j <> Wake).
      { intros C. assert (P : at_ s = Park). { destruct (at_ s) eqn:P; auto; exfalso; pose proof (I_cnt _ _ I) as Q; rewrite P in Q; pose proof (lefts_pos s (upto c (complete c s) (at_ s))); rewrite P in *; specialize (Q ltac:(discriminate)); lia. }
        split; [exact P|]. split.
        - destruct (tok s) eqn:T; auto. destruct (I_tok _ _ I T) as [_ [Q _]]. lia.
        - intros j J. destruct (I_wake _ _ I j J) as [_ [Q _]]. lia. }
      apply waker_inv with (s := s) (i := i); sf; rewrite ?upd_same; auto; try congruence.
      * destruct NX as [-> | ->]; discriminate.
      * destruct NX as [-> | ->]; discriminate.
      * destruct NX as [-> | ->]; auto.
      * intros P. pose proof (I_cnt _ _ I P). specialize (LL (upto c (complete c s) (at_ s))). lia.
      * intros P T C. exfalso. destruct (Z.eqb_spec (cnt s + 1) 0) as [Z0|Z0].
        -- apply (C i). rewrite upd_same. reflexivity.
        -- apply Z0. destruct (I_park _ _ I P T) as [Q _]; [|lia]. intros j J. destruct (Nat.eq_dec j i) as [->|N]; [congruence|]. apply (C j). rewrite W by auto. auto.
      * intros T. destruct (I_tok _ _ I T) as [A [B C]]. split; auto. split; [lia|]. intros j J. destruct (Nat.eq_dec j i) as [->|N].
        -- rewrite upd_same in J. unfold nx in J. destruct (Z.eqb_spec (cnt s + 1) 0); [lia|discriminate].
        -- rewrite W in J by auto. apply (C j J).
      * intros j J. destruct (Nat.eq_dec j i) as [->|N].
        -- rewrite upd_same in J. unfold nx in J. destruct (Z.eqb_spec (cnt s + 1) 0) as [Z0|]; [|discriminate]. destruct (CP Z0) as [A [B C]]. split; auto. split; [lia|]. split; auto.
           intros k K. destruct (Nat.eq_dec k i) as [->|M]; auto. rewrite W in K by auto. destruct (C k K).
        -- rewrite W in J by auto. destruct (I_wake _ _ I j J) as [A [B [C D]]]. split; auto. split; [lia|]. split; auto. intros k K. destruct (Nat.eq_dec k i) as [->|M].
           ++ rewrite upd_same in K. unfold nx in K. destruct (Z.eqb_spec (cnt s + 1) 0); [lia|discriminate].
           ++ rewrite W in K by auto. auto.
    + injection H as <-. destruct (I_wake _ _ I i E) as [A [B [C D]]].
      assert (LL : forall k, lefts (set_nd (set_tok s true) i Off) k = lefts s k).
      { induction k; cbn [lefts]; [reflexivity|]. rewrite IHk. f_equal. unfold left. sf. destruct (Nat.eq_dec k i) as [->|N]; [rewrite E, !upd_same; reflexivity|rewrite !upd_other by auto; reflexivity]. }
      assert (W : forall j, upd (nd s) i Off j <> Wake).
      { intros j J. destruct (Nat.eq_dec j i) as [->|N]; [rewrite upd_same in J; discriminate|]. rewrite upd_other in J by auto. apply N. apply D. auto. }
      apply waker_inv with (s := s) (i := i); sf; rewrite ?upd_same; auto; try congruence.
      * intros; apply upd_other; auto.
Qed.


Definition noadd (p : pc) : Prop := match p with RegAdd _ => False | _ => True end.
Lemma lefts_same : forall s s1 k, st s1 = st s -> nd s1 = nd s -> noadd (at_ s) -> noadd (at_ s1) -> lefts s1 k = lefts s k.
Proof.
  intros s s1 k A B C D. induction k; cbn [lefts]; [reflexivity|]. rewrite IHk. f_equal. unfold left. rewrite A, B. destruct (st s k); auto. destruct (nd s k); auto; destruct (at_ s); destruct (at_ s1); auto; cbn [noadd] in *; tauto.
Qed.
Lemma complete_same : forall c s s1, st s1 = st s -> complete c s1 = complete c s.
Proof. intros c s s1 H. unfold complete. rewrite H. reflexivity. Qed.
(** the waiter moves on without touching anything but the token and the counter *)
Lemma move_inv : forall c s s1, Inv c s -> st s1 = st s -> nd s1 = nd s -> ran s1 = ran s -> noadd (at_ s) -> noadd (at_ s1) -> regd c (at_ s) <= regd c (at_ s1) <= n c ->
  (forall i, regd c (at_ s) <= i < regd c (at_ s1) -> en c i = false) ->
  match at_ s1 with RegAdd i | Body i | Unr i | FinU i | FinB i => i < n c /\ en c i = true | Fin i => i <= n c | _ => True end ->
  find c (at_ s) <= find c (at_ s1) ->
  (forall i, find c (at_ s) <= i < find c (at_ s1) -> en c i = false \/ st s i = RUN \/ kd c i = Future) ->
  (forall i, at_ s1 = Body i -> st s i = SAT) -> (forall i, at_ s1 <> Unr i) ->
  (forall i, at_ s1 = FinU i -> st s i <> RUN) -> (forall i, at_ s1 = FinB i -> st s i = SAT /\ kd c i = Channel) ->
  (at_ s1 <> Park -> (lefts s (upto c (complete c s) (at_ s1)) <= cnt s1)%Z) ->
  (at_ s1 = Park -> tok s1 = false -> (forall j, nd s j <> Wake) -> cnt s1 = (-1)%Z /\ lefts s (n c) = 0%Z) ->
  (tok s1 = true -> at_ s1 = Park /\ (0 <= cnt s1)%Z /\ forall j, nd s j <> Wake) ->
  (forall j, nd s j = Wake -> at_ s1 = Park /\ (0 <= cnt s1)%Z /\ tok s1 = false /\ forall k, nd s k = Wake -> k = j) ->
  (at_ s1 = Dec \/ at_ s1 = Park -> complete c s = false) ->
  (els c = false -> match at_ s1 with Fin _ | FinU _ | FinB _ | Done => complete c s = true | _ => True end) ->
  match at_ s1 with ElseB => els c = true /\ complete c s = false | Check | Dec | Park => els c = false | _ => True end ->
  (forall i, at_ s = Unr i \/ at_ s1 = FinB i -> kd c i = Channel -> busy (nd s i) = false /\ nd s i <> Listed) ->
  Inv c s1.
Proof.
  intros c s s1 I A B R NA1 NA2 RG RE IX FD FE H1 H2 H3 H4 C1 C2 C3 C4 H5 H6 H7 CL.
  destruct I. constructor; rewrite ?A, ?B, ?R, ?(complete_same c s s1 A), ?(lefts_same s s1 _ A B NA1 NA2); auto; try tauto; try lia.
  - intros i H. apply I_new0. destruct H; [left; lia|auto].
  - intros i H M. apply I_unr0; auto. lia.
  - intros i H M. destruct (Nat.lt_ge_cases i (regd c (at_ s))) as [Q|Q]; [|rewrite (RE i) in H by lia; discriminate]. specialize (I_nd0 i H Q). destruct (nd s i); auto. intros U. specialize (I_nd0 U). lia.
  - intros i H. rewrite H in NA2. destruct NA2.
  - intros i H. destruct (H2 i H).
  - intros i H. rewrite I_ran0 by auto. destruct (st s i) eqn:E; auto. destruct (kd c i) eqn:K; auto. destruct (Nat.ltb_spec i (find c (at_ s))), (Nat.ltb_spec i (find c (at_ s1))); auto; try lia.
    destruct (FE i ltac:(lia)) as [Q|[Q|Q]]; congruence.
  - intros i H K. unfold closed in H. rewrite A in H.
    assert (Q : closed c s i \/ at_ s = Unr i \/ at_ s1 = FinB i \/ en c i = false).
    { unfold closed. destruct H as [[H _]|[H|H]].
      - destruct (at_ s) as [| | | | | |j0|j| | | | |]; try (left; left; split; [exact H|discriminate]). destruct (Nat.eq_dec j i) as [->|]; [auto|left; left; split; [exact H|congruence]].
      - destruct (Nat.lt_ge_cases i (find c (at_ s))); [auto|]. destruct (FE i ltac:(lia)) as [Q|[Q|Q]]; [auto| |congruence].
        destruct (at_ s) as [| | | | | |j0|j| | | | |]; try (left; left; split; [exact Q|discriminate]). destruct (Nat.eq_dec j i) as [->|]; [auto|left; left; split; [exact Q|congruence]].
      - auto. }
    destruct Q as [Q|[Q|[Q|Q]]]; [apply I_cls0; auto|apply CL; auto|apply CL; auto|]. destruct (I_new0 i (or_intror Q)) as [-> _]. split; [reflexivity|discriminate].
Qed.
Lemma nowake : forall c s, Inv c s -> at_ s <> Park -> tok s = false /\ forall i, nd s i <> Wake.
Proof.
  intros c s I N. split.
  - destruct (tok s) eqn:T; auto. destruct (I_tok _ _ I T). contradiction.
  - intros i H. destruct (I_wake _ _ I i H). contradiction.
Qed.
Lemma cnt_pos : forall c s, Inv c s -> at_ s <> Park -> (0 <= cnt s)%Z.
Proof. intros c s I N. pose proof (I_cnt _ _ I N). pose proof (lefts_pos s (upto c (complete c s) (at_ s))). lia. Qed.
(** a move of the waiter that is not to or from park *)
Lemma goto_inv : forall c s p, Inv c s -> noadd (at_ s) -> noadd p -> at_ s <> Park -> p <> Park -> regd c (at_ s) <= regd c p <= n c ->
  (forall i, regd c (at_ s) <= i < regd c p -> en c i = false) ->
  match p with RegAdd i | Body i | Unr i | FinU i | FinB i => i < n c /\ en c i = true | Fin i => i <= n c | _ => True end ->
  find c (at_ s) <= find c p ->
  (forall i, find c (at_ s) <= i < find c p -> en c i = false \/ st s i = RUN \/ kd c i = Future) ->
  (forall i, p = Body i -> st s i = SAT) -> (forall i, p <> Unr i) ->
  (forall i, p = FinU i -> st s i <> RUN) -> (forall i, p = FinB i -> st s i = SAT /\ kd c i = Channel) ->
  (lefts s (upto c (complete c s) p) <= cnt s)%Z ->
  (p = Dec -> complete c s = false) ->
  (els c = false -> match p with Fin _ | FinU _ | FinB _ | Done => complete c s = true | _ => True end) ->
  match p with ElseB => els c = true /\ complete c s = false | Check | Dec | Park => els c = false | _ => True end ->
  (forall i, at_ s = Unr i \/ p = FinB i -> kd c i = Channel -> busy (nd s i) = false /\ nd s i <> Listed) ->
  Inv c (goto s p).
Proof.
  intros c s p I NA1 NA2 P1 P2 RG RE IX FD FE H1 H2 H3 H4 C1 H5 H6 H7 CL. destruct (nowake _ _ I P1) as [T W].
  apply move_inv with (s := s); sf; auto; try congruence; try (intros j J; solve [destruct (W j J)]); try (intros [E|E]; [auto|congruence]).
Qed.
Ltac neq := intros; first [discriminate | contradiction].
Ltac gt AT := apply goto_inv; rewrite ?AT; cbn [noadd regd find upto]; auto; try neq; try lia.
Lemma scan_end : forall c s i, Inv c s -> at_ s = Scan i -> (n c <= i \/ complete c s = true) -> Inv c (scanned c s).
Proof.
  intros c s i I AT H. unfold scanned. pose proof (I_cnt _ _ I) as C. rewrite AT in C. specialize (C ltac:(discriminate)). cbn [upto] in C. pose proof (lefts_pos s (Nat.min i (n c))).
  assert (Q : forall p, (forall k, p <> FinB k) -> forall k, Scan i = Unr k \/ p = FinB k -> kd c k = Channel -> busy (nd s k) = false /\ nd s k <> Listed) by (intros p P k [K|K]; [discriminate|destruct (P k K)]).
  destruct (els c) eqn:E.
  - destruct (complete c s) eqn:CS; gt AT; try congruence; cbn [lefts]; try lia; apply Q; discriminate.
  - gt AT; cbn [lefts]; try lia; try (apply Q; discriminate). destruct (complete c s) eqn:CS; cbn [lefts]; [lia|]. destruct H as [H|H]; [|discriminate]. rewrite Nat.min_r in C by lia. exact C.
Qed.
Ltac go H := injection H as <-.
Lemma no_chan : forall c s i p, at_ s = p -> (forall k, p <> Unr k) -> forall q, (forall k, q <> FinB k) -> at_ s = Unr i \/ q = FinB i -> kd c i = Channel -> busy (nd s i) = false /\ nd s i <> Listed.
Proof. intros c s i p A B q D [H|H]; [destruct (B i); congruence|destruct (D i H)]. Qed.
(** registering *)
Lemma list_inv : forall c s k, Inv c s -> at_ s = Reg k -> k < n c -> en c k = true -> Inv c (goto (set_nd s k Listed) (Reg (k + 1))).
Proof.
  intros c s k I AT L E. destruct (nowake _ _ I) as [T W]; [congruence|]. pose proof (cnt_pos _ _ I ltac:(congruence)) as CP.
  assert (U : st s k = UNSAT) by (apply (I_unr _ _ I); auto; rewrite AT; cbn [regd]; lia).
  assert (N : nd s k = NotReg /\ ran s k = 0) by (apply (I_new _ _ I); rewrite AT; cbn [regd]; lia).
  assert (LL : forall m, lefts (goto (set_nd s k Listed) (Reg (k + 1))) m = lefts s m).
  { induction m; cbn [lefts]; [reflexivity|]. rewrite IHm. f_equal. unfold left. sf. rewrite AT. destruct (Nat.eq_dec m k) as [->|M]; [rewrite U; reflexivity|rewrite upd_other by auto; reflexivity]. }
  destruct I. rewrite AT in *. cbn [regd find upto] in *.
  assert (W1 : forall j, upd (nd s) k Listed j <> Wake) by (intros j; destruct (Nat.eq_dec j k) as [->|M]; [rewrite upd_same; discriminate|rewrite upd_other by auto; auto]).
  constructor; sf; cbn [regd find upto]; try rewrite LL; auto; try lia; try neq; try solve [intros; congruence]; try (intros [J|J]; discriminate); try (intros j J; solve [destruct (W1 j J)]); try (intros _; apply I_cnt0; discriminate).
  - intros j J. destruct (Nat.eq_dec j k) as [->|M]; [destruct J; [lia|congruence]|]. rewrite upd_other by auto. apply I_new0. destruct J; [left; lia|auto].
  - intros j J1 J2. apply I_unr0; auto. lia.
  - intros j J1 J2. destruct (Nat.eq_dec j k) as [->|M]; [rewrite upd_same; auto|]. rewrite upd_other by auto. apply I_nd0; auto. lia.
  - intros j J K. unfold closed in J. sf. cbn [find] in J. destruct J as [[J _]|[J|J]]; [|lia|discriminate]. destruct (Nat.eq_dec j k) as [->|M]; [congruence|]. rewrite upd_other by auto. apply I_cls0; auto. left. split; auto. congruence.
Qed.
Lemma now_inv : forall c s k, Inv c s -> at_ s = Reg k -> k < n c -> en c k = true -> Inv c (goto (set_st s k SAT) (RegAdd k)).
Proof.
  intros c s k I AT L E. destruct (nowake _ _ I) as [T W]; [congruence|]. pose proof (cnt_pos _ _ I ltac:(congruence)) as CP.
  assert (U : st s k = UNSAT) by (apply (I_unr _ _ I); auto; rewrite AT; cbn [regd]; lia).
  assert (N : nd s k = NotReg /\ ran s k = 0) by (apply (I_new _ _ I); rewrite AT; cbn [regd]; lia).
  assert (LL : forall m, lefts (goto (set_st s k SAT) (RegAdd k)) m = lefts s m).
  { induction m; cbn [lefts]; [reflexivity|]. rewrite IHm. f_equal. unfold left. sf. rewrite AT. destruct (Nat.eq_dec m k) as [->|M].
    - rewrite U, upd_same. destruct N as [-> _]. rewrite Nat.eqb_refl. reflexivity.
    - rewrite upd_other by auto. destruct (st s m); auto. destruct (nd s m); auto; destruct (Nat.eqb_spec k m); congruence. }
  destruct I. rewrite AT in *. cbn [regd find upto] in *.
  constructor; sf; cbn [regd find upto]; try rewrite LL; auto; try lia; try neq; try solve [intros; congruence]; try (intros [J|J]; discriminate); try (intros j J; solve [destruct (W j J)]); try (intros _; apply I_cnt0; discriminate).
  - intros j J. apply I_new0. destruct J; [left; lia|auto].
  - intros j J1 J2. destruct (Nat.eq_dec j k) as [->|M]; [lia|]. rewrite upd_other by auto. apply I_unr0; auto. lia.
  - intros j J. destruct (Nat.eq_dec j k) as [->|M]; [congruence|]. rewrite upd_other by auto. auto.
  - intros j J1 J2. destruct (Nat.eq_dec j k) as [->|M]; [rewrite upd_same; destruct N as [-> _]; discriminate|]. rewrite upd_other by auto. apply I_nd0; auto. lia.
  - intros j J. injection J as <-. rewrite upd_same. tauto.
  - intros j J. destruct (Nat.eq_dec j k) as [->|M]; [rewrite upd_same|rewrite upd_other by auto; rewrite I_ran0 by auto; reflexivity]. destruct N as [_ ->]. destruct (kd c k); auto.
  - intros j J K. unfold closed in J. sf. cbn [find] in J. destruct J as [[J _]|[J|J]]; [|lia|discriminate]. destruct (Nat.eq_dec j k) as [->|M]; [rewrite upd_same in J; discriminate|]. rewrite upd_other in J by auto. apply I_cls0; auto. left. split; auto. congruence.
Qed.
Lemma radd_inv : forall c s k, Inv c s -> at_ s = RegAdd k -> Inv c (goto (add_c s 1) (Reg (k + 1))).
Proof.
  intros c s k I AT. destruct (nowake _ _ I) as [T W]; [congruence|]. pose proof (cnt_pos _ _ I ltac:(congruence)) as CP.
  destruct (I_add _ _ I k AT) as [N U].
  assert (LL : forall m, (lefts (goto (add_c s 1) (Reg (k + 1))) m <= lefts s m + 1)%Z).
  { intros m. apply lefts_le1 with (j := k). intros j _ J. unfold left. sf. rewrite AT. destruct (st s j); try lia. destruct (Nat.eqb_spec k j); [congruence|]. destruct (nd s j); lia. }
  destruct I. rewrite AT in *. cbn [regd find upto] in *. pose proof (I_cnt0 ltac:(discriminate)).
  constructor; sf; cbn [regd find upto]; auto; try lia; try neq; try solve [intros; congruence]; try (intros [J|J]; discriminate); try (intros j J; solve [destruct (W j J)]).
  - specialize (LL (n c)). lia.
  - intros j J K. apply I_cls0; auto. unfold closed in *. sf. cbn [find] in J. destruct J as [[J _]|[J|J]]; [|lia|discriminate]. left. split; auto. congruence.
Qed.
Lemma body_inv : forall c s i, Inv c s -> at_ s = Body i -> Inv c (goto (set_st (set_ran s i) i RUN) (Unr i)).
Proof.
  intros c s k I AT. destruct (nowake _ _ I) as [T W]; [congruence|]. pose proof (cnt_pos _ _ I ltac:(congruence)) as CP.
  pose proof (I_body _ _ I k AT) as U. pose proof (I_idx _ _ I) as L. rewrite AT in L. destruct L as [L E].
  assert (LL : forall m, (lefts (goto (set_st (set_ran s k) k RUN) (Unr k)) m <= lefts s m)%Z).
  { intros m. apply lefts_le. intros j _. unfold left. sf. rewrite AT. destruct (Nat.eq_dec j k) as [->|M]; [rewrite upd_same, U; destruct (nd s k); lia|]. rewrite upd_other by auto. lia. }
  destruct I. rewrite AT in *. cbn [regd find upto] in *. pose proof (I_cnt0 ltac:(discriminate)).
  constructor; sf; cbn [regd find upto]; auto; try lia; try neq; try solve [intros; congruence]; try (intros [J|J]; discriminate); try (intros j J; solve [destruct (W j J)]).
  - intros j J. destruct (Nat.eq_dec j k) as [->|M]; [destruct J; [lia|congruence]|]. rewrite upd_other by auto. auto.
  - intros j J1 J2. destruct (Nat.eq_dec j k) as [->|M]; [lia|]. rewrite upd_other by auto. auto.
  - intros j J. destruct (Nat.eq_dec j k) as [->|M]; [congruence|]. rewrite upd_other by auto. auto.
  - intros j J1 J2. specialize (I_nd0 j J1 J2). destruct (Nat.eq_dec j k) as [->|M]; [rewrite upd_same, U in *; destruct (nd s k); congruence|]. rewrite upd_other by auto. auto.
  - intros j J. injection J as <-. apply upd_same.
  - specialize (LL (Nat.min k (n c))). lia.
  - intros j J. destruct (Nat.eq_dec j k) as [->|M]; [rewrite !upd_same|rewrite !upd_other by auto; rewrite I_ran0 by auto; reflexivity]. rewrite I_ran0, U by auto. destruct (kd c k); reflexivity.
  - intros j J K. unfold closed in J. sf. cbn [find] in J. destruct J as [[J J1]|[J|J]]; [|lia|discriminate]. destruct (Nat.eq_dec j k) as [->|M]; [congruence|]. rewrite upd_other in J by auto. apply I_cls0; auto. left. split; auto. congruence.
Qed.
(** the finally clause *)
Lemma off_inv : forall c s i, Inv c s -> at_ s = FinU i -> nd s i = Listed -> Inv c (goto (set_nd s i Off) (Fin (i + 1))).
Proof.
  intros c s k I AT N. destruct (nowake _ _ I) as [T W]; [congruence|]. pose proof (cnt_pos _ _ I ltac:(congruence)) as CP.
  pose proof (I_idx _ _ I) as L. rewrite AT in L. destruct L as [L E]. 
  assert (U : st s k = UNSAT). { pose proof (I_nd _ _ I k E) as Q. rewrite AT, N in Q. apply Q. exact L. }
  destruct I. rewrite AT in *. cbn [regd find upto] in *.
  assert (W1 : forall j, upd (nd s) k Off j <> Wake) by (intros j; destruct (Nat.eq_dec j k) as [->|M]; [rewrite upd_same; discriminate|rewrite upd_other by auto; auto]).
  constructor; sf; cbn [regd find upto lefts]; auto; try lia; try neq; try solve [intros; congruence]; try (intros [J|J]; discriminate); try (intros j J; solve [destruct (W1 j J)]).
  - intros j J. destruct (Nat.eq_dec j k) as [->|M]; [destruct J; [lia|congruence]|]. rewrite upd_other by auto. auto.
  - intros j J1 J2. specialize (I_nd0 j J1 J2). destruct (Nat.eq_dec j k) as [->|M]; [rewrite upd_same; lia|]. rewrite upd_other by auto. destruct (nd s j); auto. intros Q. specialize (I_nd0 Q). lia.
  - intros j J. rewrite I_ran0 by auto. destruct (st s j) eqn:SJ; auto. destruct (kd c j); auto. destruct (Nat.ltb_spec j k), (Nat.ltb_spec j (k + 1)); auto; try lia. replace j with k in SJ by lia. congruence.
  - intros j J K. unfold closed in J. sf. cbn [find] in J. destruct (Nat.eq_dec j k) as [->|M]; [rewrite upd_same; split; [reflexivity|discriminate]|]. rewrite upd_other by auto. apply I_cls0; auto. unfold closed. rewrite AT. cbn [find].
    destruct J as [[J J1]|[J|J]]; [left; split; [auto|discriminate]|right; left; lia|discriminate].
Qed.
Lemma finb_inv : forall c s i, Inv c s -> at_ s = FinB i -> Inv c (goto (set_ran s i) (Fin (i + 1))).
Proof.
  intros c s k I AT. destruct (nowake _ _ I) as [T W]; [congruence|]. pose proof (cnt_pos _ _ I ltac:(congruence)) as CP.
  pose proof (I_idx _ _ I) as L. rewrite AT in L. destruct L as [L E]. destruct (I_finb _ _ I k AT) as [U KD].
  destruct I. rewrite AT in *. cbn [regd find upto] in *.
  constructor; sf; cbn [regd find upto lefts]; auto; try lia; try neq; try solve [intros; congruence]; try (intros [J|J]; discriminate); try (intros j J; solve [destruct (W j J)]).
  - intros j J. destruct (Nat.eq_dec j k) as [->|M]; [destruct J; [lia|congruence]|]. rewrite upd_other by auto. auto.
  - intros j J1 J2. specialize (I_nd0 j J1 J2). destruct (nd s j); auto. intros Q. specialize (I_nd0 Q). lia.
  - intros j J. destruct (Nat.eq_dec j k) as [->|M].
    + rewrite upd_same, I_ran0, U, KD by auto. destruct (Nat.ltb_spec k k), (Nat.ltb_spec k (k + 1)); lia.
    + rewrite upd_other, I_ran0 by auto. destruct (st s j) eqn:SJ; auto. destruct (kd c j); auto. destruct (Nat.ltb_spec j k), (Nat.ltb_spec j (k + 1)); auto; lia.
  - intros j J K. unfold closed in J. sf. cbn [find] in J. apply I_cls0; auto. unfold closed. rewrite AT. cbn [find].
    destruct J as [[J J1]|[J|J]]; [left; split; [auto|discriminate]| |discriminate]. destruct (Nat.eq_dec j k) as [->|M]; auto. right; left; lia.
Qed.
Lemma step_go : forall c s s1, Inv c s -> step c s Go = Some s1 -> Inv c s1.
Proof.
  intros c s s1 I H. cbn [step] in H. pose proof (I_cnt _ _ I) as C. pose proof (I_idx _ _ I) as IX. pose proof (I_reg _ _ I) as RG. pose proof (I_els _ _ I) as EL. pose proof (I_end _ _ I) as EN.
  destruct (at_ s) as [k|k| | | |i|i|i| |i|i|i|] eqn:AT; try (assert (NP : at_ s <> Park) by congruence; pose proof (cnt_pos _ _ I NP) as CP; specialize (C ltac:(discriminate))); cbn [upto regd] in *.
  - go H. destruct (Nat.ltb_spec k (n c)); [destruct (en c k) eqn:E|].
    + apply list_inv; auto.
    + gt AT; try (intros j [J|J]; discriminate).
      intros j J. replace j with k by lia. auto.
    + destruct (els c) eqn:E; gt AT; cbn [Nat.min lefts]; try lia; try (intros j [J|J]; discriminate).
      destruct (complete c s); cbn [lefts]; lia.
  - go H. apply radd_inv; auto.
  - go H. destruct (complete c s) eqn:CS; gt AT; try congruence; try (intros j [J|J]; discriminate).
  - go H. pose proof (lefts_pos s (n c)). destruct (nowake _ _ I NP) as [T W]. destruct (Z.ltb_spec (cnt s - 1) 0) as [Q|Q].
    + apply move_inv with (s := s); sf; rewrite ?AT; cbn [noadd regd find upto]; auto; try neq; try lia; try congruence; try (intros j [J|J]; discriminate); try (intros [J|J]; discriminate); try (intros j J; solve [destruct (W j J)]).
      intros _. apply (I_prd _ _ I). auto.
    + apply move_inv with (s := s); sf; rewrite ?AT; cbn [noadd regd find upto Nat.min lefts]; auto; try neq; try lia; try congruence; try (intros j [J|J]; discriminate); try (intros [J|J]; discriminate); try (intros j J; solve [destruct (W j J)]).
  - destruct (tok s) eqn:T; [|discriminate]. go H. destruct (I_tok _ _ I T) as [_ [Q W]].
    apply move_inv with (s := s); sf; rewrite ?AT; cbn [noadd regd find upto Nat.min lefts]; auto; try neq; try lia; try congruence; try (intros j [J|J]; discriminate); try (intros [J|J]; discriminate); try (intros j J; solve [destruct (W j J)]).
  - go H. destruct (Nat.ltb_spec i (n c)); [destruct (complete c s) eqn:CS|].
    + apply (scan_end c s i); auto.
    + assert (G : st s i <> SAT -> Inv c (goto s (Scan (i + 1)))).
      { intros NS. gt AT; try (intros j [J|J]; discriminate). rewrite Nat.min_l in * by lia. replace (i + 1) with (S i) by lia. cbn [lefts]. unfold left. destruct (st s i); try congruence; lia. }
      destruct (st s i) eqn:SI; try (apply G; congruence).
      gt AT; try (intros j [J|J]; discriminate).
      * split; auto. destruct (en c i) eqn:E; auto. pose proof (I_dis _ _ I i E). destruct (pre c i); congruence.
      * intros j J. injection J as <-. auto.
    + apply (scan_end c s i); auto.
  - go H. apply body_inv; auto.
  - pose proof (I_unrd _ _ I i AT) as U. destruct IX as [L E].
    assert (NL : listed (nd s i) = false). { pose proof (I_nd _ _ I i E) as Q. rewrite AT in Q. specialize (Q L). destruct (nd s i); auto; congruence. }
    rewrite NL in H. 
    assert (G : (kd c i = Channel -> busy (nd s i) = false) -> Inv c (goto s (Scan (i + 1)))).
    { intros B. gt AT.
      - rewrite Nat.min_l in * by lia. replace (i + 1) with (S i) by lia. cbn [lefts]. unfold left. rewrite U. lia.
      - intros j [J|J] K; [|discriminate]. injection J as <-. split; auto. destruct (nd s i); try discriminate; congruence. }
    destruct (kd c i) eqn:KD; [go H; apply G; congruence|]. destruct (busy (nd s i)) eqn:B; [discriminate|]. go H. apply G; auto.
  - go H. gt AT; try (intros j [J|J]; discriminate); destruct EL; congruence.
  - go H. destruct (Nat.ltb_spec i (n c)); [destruct (en c i) eqn:E; [destruct (is_run (st s i)) eqn:R|]|]; cbn [andb negb].
    + gt AT; try (intros j [J|J]; discriminate). intros j J. right. left. replace j with i by lia. destruct (st s i); auto; discriminate.
    + gt AT; try (intros j [J|J]; discriminate). intros j J. injection J as <-. destruct (st s i); try discriminate; discriminate R.
    + gt AT; try (intros j [J|J]; discriminate). intros j J. left. replace j with i by lia. auto.
    + gt AT; try (intros j [J|J]; discriminate).
  - destruct IX as [L E]. pose proof (I_fin _ _ I i AT) as NR.
    destruct (kd c i) eqn:KD.
    + go H. destruct (nd s i) eqn:N; cbn [listed]; try (apply off_inv; auto); gt AT; try (intros j [J|J]; discriminate); intros j J; replace j with i by lia; auto.
    + destruct (busy (nd s i)) eqn:B; [discriminate|]. go H. destruct (listed (nd s i)) eqn:Q; [apply off_inv; auto; destruct (nd s i); solve [reflexivity|discriminate Q]|].
      pose proof (I_nd _ _ I i E) as ND. rewrite AT in ND. specialize (ND L). cbn [find] in ND.
      assert (SI : st s i = SAT). { destruct (nd s i); try discriminate; destruct (st s i); auto; try congruence. specialize (ND eq_refl). lia. }
      rewrite SI. gt AT.
      * intros j J. injection J as <-. auto.
      * intros j [J|J]; [discriminate|]. injection J as <-. split; auto. destruct (nd s i); congruence.
  - go H. apply finb_inv; auto.
  - discriminate.
Qed.
Lemma reach_inv : forall c s, reach c s -> Inv c s.
Proof.
  intros c s R. induction R as [|s a s1 R IH H]; [apply start_inv|]. destruct a as [| |i|i].
  - cbn [step] in H. destruct (at_ s) eqn:AT; try discriminate. destruct (Nat.ltb_spec k (n c)); [|discriminate]. destruct (en c k) eqn:E; [|discriminate]. cbn [andb] in H. injection H as <-. apply now_inv; auto.
  - apply (step_go c s s1 IH H).
  - apply (step_waker c s (Take i) s1 IH); auto; discriminate.
  - apply (step_waker c s (Waker i) s1 IH); auto; discriminate.
Qed.
Lemma run_reach : forall c l s s1, reach c s -> run c s l = Some s1 -> reach c s1.
Proof.
  intros c l. induction l as [|a l IH]; intros s s1 R H; cbn [run] in H; [injection H as <-; auto|].
  destruct (step c s a) as [s2|] eqn:E; [|discriminate]. apply (IH s2); auto. apply (reach_step c s a); auto.
Qed.
