From Coq Require Import List Bool Arith Lia.
From Verif.Coroutine Require Import Model Spec.
Import ListNotations.
(** The state is what the history says *)
Definition state_of (h : history) (c d : nat) : cstate :=
  if gone h d then Freed else if ended h d then Halted else if d =? c then Active else if fresh h d then Start else Blocked.
Record rel (s : state) (h : history) : Prop := Rel {
  r_st : forall d, st (cs s d) = state_of h (cur s) d;
  r_last : forall d, gone h d = false -> last (cs s d) = last_resumer h d;
  r_first : forall d, gone h d = false -> starter (cs s d) = first_resumer h d;
  r_cur : gone h (cur s) = false /\ ended h (cur s) = false /\ fresh h (cur s) = false;
  r_ended : forall d, ended h d = true -> fresh h d = false }.
Lemma rel_init : rel init [].
Proof.
  split; cbn [init cur cs].
  - intros d. unfold state_of, fresh. cbn. destruct (d =? 0); reflexivity.
  - intros d _. destruct (d =? 0); reflexivity.
  - intros d _. destruct (d =? 0); reflexivity.
  - auto.
  - discriminate.
Qed.
Lemma gone_cons (c : nat) (a : act) (h : history) (d : nat) : gone ((c, a) :: h) d = match a with Destroy x => (x =? d) || gone h d | _ => gone h d end.
Proof. unfold gone. cbn [existsb snd]. destruct a; reflexivity. Qed.
Lemma ended_cons (c : nat) (a : act) (h : history) (d : nat) : ended ((c, a) :: h) d = match a with End => (c =? d) || ended h d | _ => ended h d end.
Proof. unfold ended. cbn [existsb fst snd]. destruct a; rewrite ?andb_false_r, ?andb_true_r; reflexivity. Qed.
Lemma resumers_cons (c : nat) (a : act) (h : history) (d : nat) : resumers ((c, a) :: h) d = if negb (c =? d) && match a with Resume x | Prime x => x =? d | _ => false end then c :: resumers h d else resumers h d.
Proof.
  unfold resumers. cbn [filter]. unfold resumes at 1. cbn [fst snd]. destruct a as [e| | |e|e]; rewrite ?andb_false_r; auto; destruct (negb (c =? d) && (e =? d)); reflexivity.
Qed.
Definition target (a : act) : option nat := match a with Resume x | Prime x => Some x | _ => None end.
Lemma first_cons (x : nat) (l : list nat) : hd_error (rev (x :: l)) = match hd_error (rev l) with Some y => Some y | None => Some x end.
Proof. cbn [rev]. destruct (rev l) as [|y r]; reflexivity. Qed.

Lemma fresh_cons (c : nat) (a : act) (h : history) (d : nat) : fresh ((c, a) :: h) d = fresh h d && negb (negb (c =? d) && match a with Resume x | Prime x => x =? d | _ => false end).
Proof. unfold fresh. rewrite resumers_cons. destruct (negb (c =? d) && match a with Resume x | Prime x => x =? d | _ => false end); cbn [negb]; [now rewrite !andb_false_r|now rewrite andb_true_r]. Qed.
Lemma last_cons (c : nat) (a : act) (h : history) (d : nat) : last_resumer ((c, a) :: h) d = if negb (c =? d) && match a with Resume x | Prime x => x =? d | _ => false end then Some c else last_resumer h d.
Proof. unfold last_resumer. rewrite resumers_cons. destruct (negb (c =? d) && match a with Resume x | Prime x => x =? d | _ => false end); reflexivity. Qed.
Lemma first_cons' (c : nat) (a : act) (h : history) (d : nat) : first_resumer ((c, a) :: h) d = if negb (c =? d) && match a with Resume x | Prime x => x =? d | _ => false end then match first_resumer h d with Some y => Some y | None => Some c end else first_resumer h d.
Proof. unfold first_resumer. rewrite resumers_cons. destruct (negb (c =? d) && match a with Resume x | Prime x => x =? d | _ => false end); [apply first_cons|reflexivity]. Qed.
Lemma eqb_no a b : a <> b -> (a =? b) = false.
Proof. apply Nat.eqb_neq. Qed.
Lemma upd_same f i c : upd f i c i = c.
Proof. unfold upd. now rewrite Nat.eqb_refl. Qed.
Lemma upd_other f i c j : j <> i -> upd f i c j = f j.
Proof. intros H. unfold upd. now rewrite (eqb_no _ _ H). Qed.
Lemma set_same f i x : set_st f i x i = Cor x (starter (f i)) (last (f i)).
Proof. unfold set_st, upd. now rewrite Nat.eqb_refl. Qed.
Lemma set_other f i x j : j <> i -> set_st f i x j = f j.
Proof. intros H. unfold set_st, upd. now rewrite (eqb_no _ _ H). Qed.
Lemma last_set f i x j : last (set_st f i x j) = last (f j).
Proof. unfold set_st, upd. destruct (Nat.eqb_spec j i); subst; reflexivity. Qed.
Lemma starter_set f i x j : starter (set_st f i x j) = starter (f j).
Proof. unfold set_st, upd. destruct (Nat.eqb_spec j i); subst; reflexivity. Qed.
Lemma st_set f i x j : st (set_st f i x j) = if j =? i then x else st (f j).
Proof. unfold set_st, upd. destruct (Nat.eqb_spec j i); subst; reflexivity. Qed.
Ltac eqs := repeat match goal with
  | |- context [?a =? ?b] => destruct (Nat.eqb_spec a b); subst
  | H : context [?a =? ?b] |- _ => destruct (Nat.eqb_spec a b); subst
  end.
(** control goes to l, which is neither gone nor ended: the state of src is Halted if it has ended *)
Lemma state_live h c d : gone h d = false -> ended h d = false -> fresh h d = false -> state_of h c d = if d =? c then Active else Blocked.
Proof. unfold state_of. intros -> -> ->. reflexivity. Qed.
Lemma fresh_last h d : fresh h d = true -> last_resumer h d = None /\ first_resumer h d = None.
Proof. unfold fresh, last_resumer, first_resumer. destruct (resumers h d); [auto|]. rewrite andb_false_r. discriminate. Qed.
Lemma last_fresh h d l : last_resumer h d = Some l -> fresh h d = false.
Proof. unfold fresh, last_resumer. destruct (resumers h d); [discriminate|]. intros _. apply andb_false_r. Qed.
(** who has resumed has run *)
Definition sane (h : history) : Prop := forall d x, In x (resumers h d) -> fresh h x = false.
Lemma sane_cons (c : nat) (a : act) (h : history) : fresh h c = false -> sane h -> sane ((c, a) :: h).
Proof.
  intros F S d x. rewrite resumers_cons, fresh_cons. intros H.
  destruct (negb (c =? d) && match a with Resume y | Prime y => y =? d | _ => false end).
  - destruct H as [<-|H]; [now rewrite F|]. now rewrite (S _ _ H).
  - now rewrite (S _ _ H).
Qed.
Lemma last_in h d l : last_resumer h d = Some l -> In l (resumers h d).
Proof. unfold last_resumer. destruct (resumers h d); [discriminate|]. cbn. intros [= ->]. now left. Qed.
Lemma first_in h d l : first_resumer h d = Some l -> In l (resumers h d).
Proof. unfold first_resumer. destruct (rev (resumers h d)) eqn:E; [discriminate|]. cbn. intros [= ->]. apply in_rev. rewrite E. now left. Qed.
Definition agrees (a : act) (s : state) (h : history) : Prop :=
  match step a s with Go s' => verdict_of h (cur s) a = To (cur s') /\ rel s' ((cur s, a) :: h) | Abort => verdict_of h (cur s) a = Stop | Undef => verdict_of h (cur s) a = Bad end.
Lemma resume_ok s h d : rel s h -> agrees (Resume d) s h.
Proof.
  intros [Rs Rl Rf [C1 [C2 C3]] Re]. unfold agrees. cbn [step verdict_of]. unfold resume. rewrite (Rs d).
  unfold state_of at 1. destruct (gone h d) eqn:G; [reflexivity|].
  replace (is_freed (if ended h d then Halted else if d =? cur s then Active else if fresh h d then Start else Blocked)) with false by (destruct (ended h d), (d =? cur s), (fresh h d); reflexivity).
  destruct (Nat.eqb_spec (cur s) d) as [E|N].
  - subst d. split; [reflexivity|]. split; cbn [switch cur cs].
    + intros x. rewrite !st_set, (Rs x). unfold state_of. rewrite gone_cons, ended_cons, fresh_cons. eqs; rewrite ?C1, ?C2; auto; cbn [andb negb]; try congruence; rewrite ?andb_true_r; reflexivity.
    + intros x Gx. rewrite gone_cons in Gx. rewrite !last_set, last_cons, (Rl x Gx). eqs; cbn [andb negb]; try congruence; reflexivity.
    + intros x Gx. rewrite gone_cons in Gx. rewrite !starter_set, first_cons', (Rf x Gx). eqs; cbn [andb negb]; try congruence; reflexivity.
    + rewrite gone_cons, ended_cons, fresh_cons, C3. auto.
    + intros x. rewrite ended_cons, fresh_cons. intros Ex. now rewrite (Re x Ex).
  - destruct (ended h d) eqn:Ed; [unfold state_of; now rewrite G, Ed|].
    replace (is_halted (state_of h (cur s) d)) with false by (unfold state_of; rewrite G, Ed; destruct (d =? cur s), (fresh h d); reflexivity).
    split; [reflexivity|]. split; cbn [switch cur cs].
    + intros x. rewrite !st_set. unfold upd at 2. unfold state_of. rewrite gone_cons, ended_cons, fresh_cons.
      destruct (Nat.eqb_spec x d) as [->|Nx]; [now rewrite G, Ed|].
      destruct (Nat.eqb_spec x (cur s)) as [->|Nc].
      * unfold upd. rewrite (eqb_no (cur s) d N), (Rs (cur s)). unfold state_of. rewrite C1, C2, C3, Nat.eqb_refl. reflexivity.
      * rewrite (Rs x). unfold state_of. rewrite (eqb_no x (cur s) Nc), (eqb_no d x) by congruence. rewrite !andb_false_r. cbn [negb]. now rewrite andb_true_r.
    + intros x Gx. rewrite gone_cons in Gx. rewrite !last_set, last_cons. unfold upd. eqs; cbn [andb negb last]; try congruence; auto.
    + intros x Gx. rewrite gone_cons in Gx. rewrite !starter_set, first_cons'. unfold upd. eqs; cbn [andb negb starter]; try congruence; auto. rewrite (Rf d Gx). reflexivity.
    + rewrite gone_cons, ended_cons, fresh_cons, (eqb_no (cur s) d N), Nat.eqb_refl. cbn [negb andb]. rewrite andb_false_r. auto.
    + intros x. rewrite ended_cons, fresh_cons. intros Ex. now rewrite (Re x Ex).
Qed.
Lemma suspend_ok s h : rel s h -> sane h -> agrees Suspend s h.
Proof.
  intros [Rs Rl Rf [C1 [C2 C3]] Re] Sa. unfold agrees. cbn [step verdict_of]. unfold suspend. rewrite (Rl _ C1). unfold leave_to, back.
  destruct (last_resumer h (cur s)) as [l|] eqn:L; [|reflexivity]. rewrite (Rs l). pose proof (Sa _ _ (last_in _ _ _ L)) as Fl.
  destruct (gone h l) eqn:G; [unfold state_of; now rewrite G|]. destruct (ended h l) eqn:El; [unfold state_of; now rewrite G, El|].
  rewrite (state_live _ _ _ G El Fl).
  assert (X : To l = To (cur (switch s (cur s) l)) /\ rel (switch s (cur s) l) ((cur s, Suspend) :: h)).
  { split; [reflexivity|]. split; cbn [switch cur cs].
    + intros x. rewrite !st_set, (Rs (cur s)), (state_live _ _ _ C1 C2 C3), Nat.eqb_refl. cbn [is_halted]. unfold state_of. rewrite gone_cons, ended_cons, fresh_cons, andb_false_r, andb_true_r.
      destruct (Nat.eqb_spec x l) as [->|Nx]; [now rewrite G, El|]. destruct (Nat.eqb_spec x (cur s)) as [->|Nc]; [now rewrite C1, C2, C3|].
      rewrite (Rs x). unfold state_of. now rewrite (eqb_no x (cur s) Nc).
    + intros x Gx. rewrite gone_cons in Gx. rewrite !last_set, last_cons, andb_false_r. auto.
    + intros x Gx. rewrite gone_cons in Gx. rewrite !starter_set, first_cons', andb_false_r. auto.
    + rewrite gone_cons, ended_cons, fresh_cons, Fl. auto.
    + intros x. rewrite ended_cons, fresh_cons. intros Ex. now rewrite (Re x Ex). }
  destruct (l =? cur s); exact X.
Qed.
Lemma no_self h d : ~ In d (resumers h d).
Proof.
  unfold resumers. intros H. apply in_map_iff in H as [[c a] [E H]]. cbn [fst] in E. subst c. apply filter_In in H as [_ H]. unfold resumes in H. cbn [fst] in H. now rewrite Nat.eqb_refl in H.
Qed.
Lemma end_ok s h : rel s h -> sane h -> agrees End s h.
Proof.
  intros [Rs Rl Rf [C1 [C2 C3]] Re] Sa. unfold agrees. cbn [step verdict_of]. unfold cor_end. rewrite (Rf _ C1). unfold leave_to, back.
  destruct (first_resumer h (cur s)) as [l|] eqn:L; [|reflexivity]. cbn [cs]. pose proof (Sa _ _ (first_in _ _ _ L)) as Fl.
  assert (N : l <> cur s) by (intros ->; eapply no_self; eapply first_in; eauto).
  rewrite st_set, (eqb_no _ _ N), (Rs l).
  destruct (gone h l) eqn:G; [unfold state_of; now rewrite G|]. destruct (ended h l) eqn:El; [unfold state_of; now rewrite G, El|].
  rewrite (state_live _ _ _ G El Fl), (eqb_no _ _ N). split; [reflexivity|]. split; cbn [switch cur cs].
  + intros x. rewrite !st_set, Nat.eqb_refl. cbn [is_halted]. unfold state_of. rewrite gone_cons, ended_cons, fresh_cons, andb_false_r, andb_true_r.
    destruct (Nat.eqb_spec x l) as [->|Nx]; [rewrite (eqb_no (cur s) l) by congruence; cbn [orb]; now rewrite G, El|].
    destruct (Nat.eqb_spec x (cur s)) as [->|Nc]; [rewrite Nat.eqb_refl, C1; reflexivity|].
    rewrite (eqb_no (cur s) x) by congruence. cbn [orb]. rewrite (Rs x). unfold state_of. now rewrite (eqb_no x (cur s) Nc).
  + intros x Gx. rewrite gone_cons in Gx. rewrite !last_set, last_cons, andb_false_r. auto.
  + intros x Gx. rewrite gone_cons in Gx. rewrite !starter_set, first_cons', andb_false_r. auto.
  + rewrite gone_cons, ended_cons, fresh_cons, Fl, (eqb_no (cur s) l) by congruence. auto.
  + intros x. rewrite ended_cons, fresh_cons, andb_false_r, andb_true_r. destruct (Nat.eqb_spec (cur s) x) as [<-|]; [auto|]. cbn [orb]. apply Re.
Qed.
Lemma prime_ok s h d : rel s h -> agrees (Prime d) s h.
Proof.
  intros [Rs Rl Rf [C1 [C2 C3]] Re]. unfold agrees. cbn [step verdict_of]. unfold prime. rewrite (Rs d). unfold state_of.
  destruct (gone h d) eqn:G; [reflexivity|]. destruct (ended h d) eqn:Ed; [now rewrite (Re d Ed)|].
  destruct (Nat.eqb_spec d (cur s)) as [->|N]; [now rewrite C3|]. destruct (fresh h d) eqn:F; [|reflexivity].
  assert (N' : cur s <> d) by congruence.
  unfold resume. cbn [cur cs]. rewrite !st_set, Nat.eqb_refl. cbn [is_freed is_halted]. rewrite (eqb_no _ _ N').
  unfold suspend, switch. cbn [cur cs]. rewrite !last_set, upd_same. cbn [last]. unfold leave_to. cbn [cs].
  rewrite !st_set, (eqb_no _ _ N'), Nat.eqb_refl. rewrite !(upd_other _ _ _ _ N'). rewrite st_set, (eqb_no _ _ N'), (Rs (cur s)), (state_live _ _ _ C1 C2 C3), Nat.eqb_refl. cbn [is_halted].
  unfold switch. cbn [cur cs].
  split; [reflexivity|]. split; cbn [cur cs].
  + intros x. rewrite !st_set, Nat.eqb_refl. cbn [is_halted]. unfold state_of. rewrite gone_cons, ended_cons, fresh_cons.
    destruct (Nat.eqb_spec x (cur s)) as [->|Nc]; [now rewrite C1, C2|].
    destruct (Nat.eqb_spec x d) as [->|Nx]; [rewrite (eqb_no _ _ N'), Nat.eqb_refl, G, Ed; cbn [negb andb]; now rewrite andb_false_r|].
    rewrite (upd_other _ _ _ _ Nx), st_set, (eqb_no _ _ Nx), (Rs x). unfold state_of. rewrite (eqb_no _ _ Nc), (eqb_no d x) by congruence. rewrite andb_false_r. cbn [negb]. now rewrite andb_true_r.
  + intros x Gx. rewrite gone_cons in Gx. rewrite !last_set, last_cons. destruct (Nat.eqb_spec x d) as [->|Nx].
    * rewrite upd_same, (eqb_no _ _ N'), Nat.eqb_refl. reflexivity.
    * rewrite (upd_other _ _ _ _ Nx), last_set, (eqb_no d x) by congruence. rewrite andb_false_r. auto.
  + intros x Gx. rewrite gone_cons in Gx. rewrite !starter_set, first_cons'. destruct (Nat.eqb_spec x d) as [->|Nx].
    * rewrite upd_same, (eqb_no _ _ N'), Nat.eqb_refl. cbn [negb andb starter]. rewrite (Rf d Gx). reflexivity.
    * rewrite (upd_other _ _ _ _ Nx), starter_set, (eqb_no d x) by congruence. rewrite andb_false_r. auto.
  + rewrite gone_cons, ended_cons, fresh_cons, C3. auto.
  + intros x. rewrite ended_cons, fresh_cons. intros Ex. now rewrite (Re x Ex).
Qed.
Lemma destroy_ok s h d : rel s h -> agrees (Destroy d) s h.
Proof.
  intros [Rs Rl Rf [C1 [C2 C3]] Re]. unfold agrees. cbn [step verdict_of]. unfold destroy. rewrite (Rs d). unfold state_of at 1.
  destruct (gone h d) eqn:G; [reflexivity|].
  assert (X : forall f, d <> cur s -> (forall x, x <> d -> st (f x) = st (cs s x) /\ last (f x) = last (cs s x) /\ starter (f x) = starter (cs s x)) ->
     To (cur s) = To (cur (St (cur s) (set_st f d Freed))) /\ rel (St (cur s) (set_st f d Freed)) ((cur s, Destroy d) :: h)).
  { intros f N Hf. split; [reflexivity|]. split; cbn [cur cs].
    + intros x. rewrite st_set. unfold state_of. rewrite gone_cons, ended_cons, fresh_cons, andb_false_r, andb_true_r.
      destruct (Nat.eqb_spec x d) as [->|Nx]; [now rewrite Nat.eqb_refl|]. rewrite (eqb_no d x) by congruence. cbn [orb]. rewrite (proj1 (Hf x Nx)). apply Rs.
    + intros x Gx. rewrite gone_cons in Gx. destruct (Nat.eqb_spec d x) as [->|Nx]; [discriminate|]. cbn [orb] in Gx. rewrite last_set, last_cons, andb_false_r. destruct (Hf x ltac:(congruence)) as [_ [-> _]]. auto.
    + intros x Gx. rewrite gone_cons in Gx. destruct (Nat.eqb_spec d x) as [->|Nx]; [discriminate|]. cbn [orb] in Gx. rewrite starter_set, first_cons', andb_false_r. destruct (Hf x ltac:(congruence)) as [_ [_ ->]]. auto.
    + rewrite gone_cons, ended_cons, fresh_cons, C3, (eqb_no _ _ N). auto.
    + intros x. rewrite ended_cons, fresh_cons. intros Ex. now rewrite (Re x Ex). }
  destruct (ended h d) eqn:Ed.
  { assert (N : d <> cur s) by (intros ->; congruence). rewrite (eqb_no (cur s) d) by congruence. apply X; auto. }
  destruct (Nat.eqb_spec d (cur s)) as [->|N]; [now rewrite Nat.eqb_refl|]. rewrite (eqb_no (cur s) d) by congruence.
  destruct (fresh h d) eqn:F; [apply X; auto|].
  unfold switch. cbn [cur cs]. rewrite !last_set, upd_same. cbn [last]. unfold leave_to. cbn [cs].
  assert (N' : cur s <> d) by congruence.
  rewrite !st_set, (eqb_no _ _ N'), Nat.eqb_refl. rewrite !(upd_other _ _ _ _ N'), (Rs (cur s)), (state_live _ _ _ C1 C2 C3), Nat.eqb_refl. cbn [is_halted].
  unfold switch. cbn [cur cs]. apply X; [exact N|].
  intros x Nx. rewrite !last_set, !starter_set, !st_set, Nat.eqb_refl. cbn [is_halted]. rewrite ?(upd_other _ _ _ _ Nx), ?(upd_other _ _ _ _ N'), ?(eqb_no _ _ Nx), ?(eqb_no _ _ N').
  destruct (Nat.eqb_spec x (cur s)) as [->|Nc]; [|auto]. rewrite (Rs (cur s)), (state_live _ _ _ C1 C2 C3), Nat.eqb_refl. auto.
Qed.
Lemma agree a s h : rel s h -> sane h -> agrees a s h.
Proof. intros R Sa. destruct a; [now apply resume_ok|now apply suspend_ok|now apply end_ok|now apply prime_ok|now apply destroy_ok]. Qed.
Lemma exec_rel l : forall s h s' h', rel s h -> sane h -> exec l s h = Some (s', h') -> rel s' h' /\ sane h'.
Proof.
  induction l as [|a l IH]; intros s h s' h' R Sa E; cbn [exec] in E; [injection E as <- <-; auto|].
  pose proof (agree a s h R Sa) as A. unfold agrees in A. destruct (step a s) as [s1| |]; try discriminate.
  apply (IH _ _ _ _ (proj2 A)) in E; [exact E|]. apply sane_cons; [apply R|exact Sa].
Qed.
Lemma sane_nil : sane [].
Proof. intros d x []. Qed.
Lemma reach l s h : exec l init [] = Some (s, h) -> rel s h /\ sane h.
Proof. apply exec_rel; [apply rel_init|apply sane_nil]. Qed.
Definition verdict_out (o : out) : verdict := match o with Go s => To (cur s) | Abort => Stop | Undef => Bad end.
Theorem control l s h a : exec l init [] = Some (s, h) -> verdict_out (step a s) = verdict_of h (cur s) a.
Proof. intros E. destruct (reach _ _ _ E) as [R Sa]. pose proof (agree a s h R Sa) as A. unfold agrees in A. destruct (step a s); cbn [verdict_out]; [symmetry; apply A|now symmetry|now symmetry]. Qed.
Theorem one_active l s h : exec l init [] = Some (s, h) -> forall c, st (cs s c) = Active <-> c = cur s.
Proof.
  intros E c. destruct (reach _ _ _ E) as [[Rs _ _ [C1 [C2 C3]] _] _]. rewrite (Rs c). split.
  - unfold state_of. destruct (gone h c), (ended h c); try discriminate. destruct (Nat.eqb_spec c (cur s)); [auto|]. destruct (fresh h c); discriminate.
  - intros ->. rewrite (state_live _ _ _ C1 C2 C3). now rewrite Nat.eqb_refl.
Qed.
Lemma exec_app l1 : forall l2 s h, exec (l1 ++ l2) s h = match exec l1 s h with Some (s', h') => exec l2 s' h' | None => None end.
Proof. induction l1 as [|a l1 IH]; intros l2 s h; [reflexivity|]. cbn [app exec]. destruct (step a s); auto. Qed.
Lemma exec_grows l : forall s h s' h' d, exec l s h = Some (s', h') -> (ended h d || gone h d = true -> ended h' d || gone h' d = true).
Proof.
  induction l as [|a l IH]; intros s h s' h' d E; cbn [exec] in E; [now injection E as <- <-|]. destruct (step a s); try discriminate. intros H. apply (IH _ _ _ _ d E).
  rewrite ended_cons, gone_cons. apply orb_true_iff in H as [H|H]; rewrite H; destruct a; rewrite ?orb_true_r; reflexivity.
Qed.
Theorem never_again l1 l2 s1 h1 s2 h2 d : exec l1 init [] = Some (s1, h1) -> ended h1 d || gone h1 d = true -> exec l2 s1 h1 = Some (s2, h2) -> cur s2 <> d.
Proof.
  intros E1 H E2 C. pose proof (exec_grows _ _ _ _ _ d E2 H) as G. assert (E : exec (l1 ++ l2) init [] = Some (s2, h2)) by now rewrite exec_app, E1.
  destruct (reach _ _ _ E) as [[_ _ _ [C1 [C2 _]] _] _]. subst d. rewrite C1, C2 in G. discriminate.
Qed.
(** The stack *)
Fixpoint chain (h : history) (k : list nat) : Prop := match k with a :: (b :: _) as r => last_resumer h a = Some b /\ chain h r | _ => True end.
Definition stack_inv (s : state) (h : history) (k : list nat) : Prop :=
  rel s h /\ sane h /\ hd_error k = Some (cur s) /\ NoDup k /\ chain h k /\ forall x, In x k -> ended h x = false /\ gone h x = false /\ fresh h x = false.
Lemma not_in d k : existsb (Nat.eqb d) k = false -> ~ In d k.
Proof. intros H I. assert (existsb (Nat.eqb d) k = true) by (apply existsb_exists; exists d; split; [exact I|apply Nat.eqb_refl]). congruence. Qed.
Lemma chain_keep (c : nat) (a : act) (h : history) (k : list nat) : (forall x, target a = Some x -> ~ In x k) -> chain h k -> chain ((c, a) :: h) k.
Proof.
  intros T. induction k as [|x [|y r] IH]; auto. intros [L C]. split.
  - rewrite last_cons. replace (negb (c =? x) && match a return bool with Resume x0 | Prime x0 => x0 =? x | _ => false end) with false; [exact L|].
    symmetry. apply andb_false_iff. right. destruct a as [d| | |d|d]; auto; apply Nat.eqb_neq; intros ->; apply (T x eq_refl); now left.
  - apply IH; [|exact C]. intros z Tz I. apply (T z Tz). now right.
Qed.
Lemma stack_one a s h k : stack_inv s h k -> allowed h k a = true -> exists s', step a s = Go s' /\ stack_inv s' ((cur s, a) :: h) (stack_step k a).
Proof.
  intros [R [Sa [Hd [ND [Ch Lv]]]]] Al. pose proof (agree a s h R Sa) as A. unfold agrees in A.
  pose proof R as [_ _ _ [C1 [C2 C3]] _].
  destruct k as [|c k]; [discriminate|]. cbn [hd_error] in Hd. injection Hd as ->.
  assert (Sa' : sane ((cur s, a) :: h)) by now apply sane_cons.
  assert (Keep : (forall x, target a = Some x -> ~ In x (cur s :: k)) -> forall x, In x (cur s :: k) -> (a = End -> x <> cur s) -> (forall y, a = Destroy y -> y <> x) -> ended ((cur s, a) :: h) x = false /\ gone ((cur s, a) :: h) x = false /\ fresh ((cur s, a) :: h) x = false).
  { intros T x I Ne Nd. destruct (Lv x I) as [L1 [L2 L3]]. rewrite ended_cons, gone_cons, fresh_cons, L1, L2, L3. repeat split; auto.
    - destruct a; auto. rewrite (eqb_no (cur s) x); [reflexivity|]. intros E. now apply Ne.
    - destruct a; auto. rewrite (eqb_no d x); [reflexivity|]. now apply Nd. }
  destruct a as [d| | |d|d]; cbn [allowed] in Al; cbn [verdict_of stack_step] in *.
  - apply andb_true_iff in Al as [Al G]. apply andb_true_iff in Al as [Ni Ed]. apply negb_true_iff in Ni, Ed, G. apply not_in in Ni. rewrite G, Ed in A.
    assert (N : cur s <> d) by (intros E0; apply Ni; left; exact E0). rewrite (eqb_no _ _ N) in A.
    destruct (step (Resume d) s) as [s1| |]; try discriminate. destruct A as [E R1]. injection E as E. exists s1. split; [reflexivity|].
    split; [exact R1|]. split; [exact Sa'|]. split; [cbn [hd_error]; now rewrite E|]. split; [now constructor|]. split.
    + change (last_resumer ((cur s, Resume d) :: h) d = Some (cur s) /\ chain ((cur s, Resume d) :: h) (cur s :: k)). split.
      * rewrite last_cons, (eqb_no _ _ N), Nat.eqb_refl. reflexivity.
      * apply chain_keep; [|exact Ch]. intros x [= <-]. exact Ni.
    + intros x [<-|I].
      * rewrite ended_cons, gone_cons, fresh_cons, (eqb_no _ _ N), Nat.eqb_refl. cbn [negb andb]. now rewrite andb_false_r.
      * apply Keep; auto; [intros y [= <-]; exact Ni|discriminate|discriminate].
  - destruct k as [|b k]; [discriminate|]. destruct Ch as [L Ch]. destruct (Lv b ltac:(right; now left)) as [L1 [L2 L3]].
    unfold back in A. rewrite L, L1, L2 in A. destruct (step Suspend s) as [s1| |]; try discriminate. destruct A as [E R1]. injection E as E. exists s1. split; [reflexivity|].
    inversion ND; subst. split; [exact R1|]. split; [exact Sa'|]. split; [reflexivity|]. split; [assumption|]. split.
    + apply chain_keep; [discriminate|exact Ch].
    + intros x I. apply Keep; [discriminate|now right|discriminate|discriminate].
  - destruct k as [|b k]; [discriminate|]. destruct Ch as [L Ch]. destruct (Lv b ltac:(right; now left)) as [L1 [L2 L3]].
    destruct (first_resumer h (cur s)) as [x|] eqn:Fr; [|discriminate]. apply Nat.eqb_eq in Al. subst x.
    unfold back in A. rewrite L1, L2 in A. destruct (step End s) as [s1| |]; try discriminate. destruct A as [E R1]. injection E as E. exists s1. split; [reflexivity|].
    inversion ND; subst. split; [exact R1|]. split; [exact Sa'|]. split; [reflexivity|]. split; [assumption|]. split.
    + apply chain_keep; [discriminate|exact Ch].
    + intros x I. apply Keep; [discriminate|now right| |discriminate]. intros _ ->. contradiction.
  - apply andb_true_iff in Al as [F G]. apply negb_true_iff in G. rewrite G, F in A.
    assert (Ni : ~ In d (cur s :: k)) by (intros I; destruct (Lv d I) as [_ [_ ?]]; congruence).
    destruct (step (Prime d) s) as [s1| |]; try discriminate. destruct A as [E R1]. injection E as E. exists s1. split; [reflexivity|].
    split; [exact R1|]. split; [exact Sa'|]. split; [cbn [hd_error]; now rewrite E|]. split; [exact ND|]. split.
    + apply chain_keep; [|exact Ch]. intros x [= <-]. exact Ni.
    + intros x I. apply Keep; auto; [intros y [= <-]; exact Ni|discriminate|discriminate].
  - apply andb_true_iff in Al as [Ni G]. apply negb_true_iff in Ni, G. apply not_in in Ni. rewrite G in A.
    assert (N : cur s <> d) by (intros E0; apply Ni; left; exact E0). rewrite (eqb_no _ _ N) in A.
    destruct (step (Destroy d) s) as [s1| |]; try discriminate. destruct A as [E R1]. injection E as E. exists s1. split; [reflexivity|].
    split; [exact R1|]. split; [exact Sa'|]. split; [cbn [hd_error]; now rewrite E|]. split; [exact ND|]. split.
    + apply chain_keep; [discriminate|exact Ch].
    + intros x I. apply Keep; auto; [discriminate|discriminate|]. intros y [= <-] ->. contradiction.
Qed.
Lemma stack_all l : forall s h k h' k', stack_inv s h k -> stack_run h k l = Some (h', k') -> exists s', exec l s h = Some (s', h') /\ stack_inv s' h' k'.
Proof.
  induction l as [|a l IH]; intros s h k h' k' I E; cbn [stack_run exec] in *; [injection E as <- <-; eauto|].
  destruct (allowed h k a) eqn:Al; [|discriminate]. destruct (stack_one a s h k I Al) as [s1 [-> I1]].
  replace (hd 0 k) with (cur s) in E; [eapply IH; eauto|]. destruct I as [_ [_ [Hd _]]]. destruct k; [discriminate|]. now injection Hd.
Qed.
Theorem stack l h k : stack_run [] [0] l = Some (h, k) -> exists s, exec l init [] = Some (s, h) /\ hd_error k = Some (cur s) /\ NoDup k.
Proof.
  intros E. destruct (stack_all l init [] [0] h k) as [s' [A B]]; auto.
  - split; [apply rel_init|]. split; [apply sane_nil|]. split; [reflexivity|]. split; [constructor; [intros []|constructor]|]. split; [exact I|].
    intros x [<-|[]]. auto.
  - exists s'. split; [exact A|]. destruct B as [_ [_ [Hd [ND _]]]]. auto.
Qed.
