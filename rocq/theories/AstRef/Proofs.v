From Coq Require Import List Bool Arith Lia.
From Verif.AstRef Require Import Model Spec.
Import ListNotations.
Lemma upd_same : forall (A : Type) (f : nat -> A) i x, upd f i x i = x.
Proof. intros. unfold upd. rewrite Nat.eqb_refl. auto. Qed.
Lemma upd_other : forall (A : Type) (f : nat -> A) i x j, j <> i -> upd f i x j = f j.
Proof. intros. unfold upd. apply Nat.eqb_neq in H. rewrite H. auto. Qed.
Definition mem (l : loc) (ex : list loc) : bool := existsb (Nat.eqb l) ex.
Lemma mem_in : forall l ex, mem l ex = true <-> In l ex.
Proof. intros. unfold mem. rewrite existsb_exists. split; [intros (x & A & B); apply Nat.eqb_eq in B; subst; auto|intros H; exists l; split; auto; apply Nat.eqb_refl]. Qed.
Definition b2n (b : bool) : nat := if b then 1 else 0.
Definition hit (sh : shape) (s : st) (k : bool) (n : node) (l : loc) : bool := Bool.eqb (kind sh l) k && is_some (cont s l) n.
Definition refs (sh : shape) (s : st) (ex : list loc) (k : bool) (n : node) : nat := length (filter (fun l => negb (mem l ex) && hit sh s k n l) (locs sh)).
Lemma filter_len_ext : forall (A : Type) (f g : A -> bool) l, (forall x, In x l -> f x = g x) -> length (filter f l) = length (filter g l).
Proof. induction l; intros H; auto. cbn [filter]. rewrite (H a) by (left; auto). destruct (g a); cbn [length]; rewrite IHl; auto; intros; apply H; right; auto. Qed.
Lemma count_refs : forall sh s k n, count sh s k n = refs sh s [] k n.
Proof. intros. apply filter_len_ext. intros. reflexivity. Qed.
Lemma refs_split : forall sh s ex k n l, NoDup (locs sh) -> In l (locs sh) -> ~ In l ex -> refs sh s ex k n = refs sh s (l :: ex) k n + b2n (hit sh s k n l).
Proof.
  intros sh s ex k n l N I E. unfold refs. revert N I. induction (locs sh) as [|a ls IH]; intros N I; [contradiction|]. inversion N as [|? ? NA NL]; subst. cbn [filter]. destruct (Nat.eq_dec a l) as [->|D].
  - replace (mem l (l :: ex)) with true by (symmetry; apply mem_in; left; auto). replace (mem l ex) with false by (symmetry; apply not_true_is_false; rewrite mem_in; auto). cbn [negb andb].
    assert (F : length (filter (fun l0 => negb (mem l0 ex) && hit sh s k n l0) ls) = length (filter (fun l0 => negb (mem l0 (l :: ex)) && hit sh s k n l0) ls)).
    { apply filter_len_ext. intros x X. unfold mem. cbn [existsb]. replace (Nat.eqb x l) with false; auto. symmetry. apply Nat.eqb_neq. congruence. }
    destruct (hit sh s k n l); cbn [length b2n]; lia.
  - destruct I as [I|I]; [congruence|]. specialize (IH NL I). replace (mem a (l :: ex)) with (mem a ex); [|unfold mem; cbn [existsb]; replace (Nat.eqb a l) with false; auto; symmetry; apply Nat.eqb_neq; auto]. destruct (negb (mem a ex) && hit sh s k n a); cbn [length]; lia.
Qed.
Lemma refs_ext : forall sh s s' ex k n, (forall l, In l (locs sh) -> ~ In l ex -> cont s' l = cont s l) -> refs sh s' ex k n = refs sh s ex k n.
Proof.
  intros sh s s' ex k n H. apply filter_len_ext. intros l I. destruct (mem l ex) eqn:E; auto. unfold hit. rewrite H; auto. rewrite <- mem_in. congruence.
Qed.
Lemma refs_pos : forall sh s ex k n, 0 < refs sh s ex k n <-> exists l, In l (locs sh) /\ ~ In l ex /\ kind sh l = k /\ cont s l = Some n.
Proof.
  intros sh s ex k n. unfold refs. split.
  - intros H. destruct (filter _ (locs sh)) as [|l ls] eqn:E; [cbn in H; lia|]. assert (I : In l (l :: ls)) by (left; auto). rewrite <- E in I. apply filter_In in I. destruct I as [I J]. apply andb_true_iff in J. destruct J as [J K]. unfold hit in K. apply andb_true_iff in K. destruct K as [K L]. exists l. split; auto.
    split; [intros X; apply mem_in in X; rewrite X in J; discriminate|]. split; [apply eqb_prop; auto|]. unfold is_some in L. destruct (cont s l); [|discriminate]. apply Nat.eqb_eq in L. congruence.
  - intros (l & A & B & C & D). assert (I : In l (filter (fun l => negb (mem l ex) && hit sh s k n l) (locs sh))).
    { apply filter_In. split; auto. replace (mem l ex) with false by (symmetry; apply not_true_is_false; rewrite mem_in; auto). unfold hit. rewrite C, D. cbn [is_some]. rewrite eqb_reflx, Nat.eqb_refl. auto. }
    destruct (filter _ (locs sh)); [contradiction|cbn; lia].
Qed.
Definition addp (P : bool -> node -> nat) (k : bool) (n : node) : bool -> node -> nat := fun j m => P j m + b2n (Bool.eqb k j && Nat.eqb n m).
Definition nop : bool -> node -> nat := fun _ _ => 0.
Record inv (sh : shape) (s : st) (ex : list loc) (P : bool -> node -> nat) (rem : list loc) : Prop := mkinv {
  I_cnt : forall k n, cnt s k n = refs sh s ex k n + P k n;
  I_dead : forall k n, alive s n = false -> cnt s k n = 0;
  I_loose : forall n, alive s n = true -> (loose s n = true <-> zero s n = true);
  I_gone : forall n, alive s n = false -> loose s n = false;
  I_nodes : forall n, made s n = true -> In n (nodes sh);
  I_made : forall n, alive s n = true -> made s n = true;
  I_freed : forall n, freed s n = b2n (made s n && negb (alive s n));
  I_field : forall l o, In l (locs sh) -> owner sh l = Some o -> alive s o = false -> ~ In l rem -> cont s l = None }.
Definition heldp (sh : shape) (s : st) (ex : list loc) (P : bool -> node -> nat) (R : node -> Prop) : Prop :=
  forall m, R m -> alive s m = true /\ (loose s m = true \/ (exists k, 0 < P k m) \/ exists l, In l (locs sh) /\ ~ In l ex /\ cont s l = Some m /\ (owner sh l = None \/ exists o, owner sh l = Some o /\ R o)).
Definition exok (sh : shape) (ex : list loc) (R : node -> Prop) : Prop := forall l, In l ex -> owner sh l = None \/ exists o, owner sh l = Some o /\ R o.
Record frame (sh : shape) (s s' : st) : Prop := mkframe {
  F_alive : forall n, alive s' n = true -> alive s n = true;
  F_cont : forall l, live sh s' l = true -> cont s' l = cont s l;
  F_loose : forall n, loose s' n = loose s n;
  F_made : forall n, made s' n = made s n }.
Definition alives (sh : shape) (s : st) : nat := length (filter (alive s) (nodes sh)).
Lemma frame_refl : forall sh s, frame sh s s.
Proof. intros. constructor; auto. Qed.
Lemma frame_live : forall sh s s' l, frame sh s s' -> live sh s' l = true -> live sh s l = true.
Proof. intros sh s s' l F. unfold live. destruct (owner sh l); auto. apply F. Qed.
Lemma frame_trans : forall sh a b c, frame sh a b -> frame sh b c -> frame sh a c.
Proof.
  intros sh a b c A B. constructor; intros.
  - apply A, B. auto.
  - rewrite (F_cont _ _ _ B) by auto. apply A. eapply frame_live; eauto.
  - rewrite (F_loose _ _ _ B). apply A.
  - rewrite (F_made _ _ _ B). apply A.
Qed.
Lemma alives_frame : forall sh s s', frame sh s s' -> alives sh s' <= alives sh s.
Proof.
  intros sh s s' F. unfold alives. induction (nodes sh); auto. cbn [filter]. destruct (alive s' a) eqn:E; [rewrite (F_alive _ _ _ F _ E); cbn [length]; lia|]. destruct (alive s a); cbn [length]; lia.
Qed.
Lemma alives_die : forall sh s n, In n (nodes sh) -> alive s n = true -> alives sh (die s n) < alives sh s.
Proof.
  intros sh s n I A. unfold alives. cbn [die alive]. revert I. induction (nodes sh) as [|a l IH]; intros I; [contradiction|]. cbn [filter].
  assert (W : length (filter (upd (alive s) n false) l) <= length (filter (alive s) l)).
  { clear. induction l; auto. cbn [filter]. unfold upd at 1. destruct (Nat.eqb a n); [destruct (alive s a); cbn [length]; lia|]. destruct (alive s a); cbn [length]; lia. }
  destruct (Nat.eq_dec a n) as [->|D].
  - rewrite upd_same, A. cbn [length]. unfold node in *. lia.
  - destruct I as [I|I]; [congruence|]. specialize (IH I). rewrite upd_other by auto. destruct (alive s a); cbn [length]; unfold node in *; lia.
Qed.
Lemma zero_iff : forall s n, zero s n = true <-> forall k, cnt s k n = 0.
Proof.
  intros s n. unfold zero. rewrite andb_true_iff, !Nat.eqb_eq. split; [intros [A B] []; auto|auto].
Qed.
Lemma upk_at : forall f k n x, upk f k n x k n = x.
Proof. intros. unfold upk. rewrite eqb_reflx, Nat.eqb_refl. auto. Qed.
Lemma upk_cases : forall f k n x j m, upk f k n x j m = if Bool.eqb j k && Nat.eqb m n then x else f j m.
Proof. reflexivity. Qed.
Lemma live_in : forall sh s ex P rem l n, inv sh s ex P rem -> In l (locs sh) -> ~ In l ex -> cont s l = Some n -> alive s n = true.
Proof.
  intros sh s ex P rem l n I L E C. destruct (alive s n) eqn:A; auto. pose proof (I_dead _ _ _ _ _ I (kind sh l) n A) as D. rewrite (I_cnt _ _ _ _ _ I) in D. assert (0 < refs sh s ex (kind sh l) n) by (apply refs_pos; eauto). lia.
Qed.
Lemma heldp_lower : forall sh s ex P R s', heldp sh s ex P R -> (forall n, R n -> alive s' n = alive s n) -> (forall n, R n -> loose s' n = loose s n) -> (forall l, owner sh l = None \/ (exists o, owner sh l = Some o /\ R o) -> cont s' l = cont s l) -> heldp sh s' ex P R.
Proof.
  intros sh s ex P R s' H A L C m M. destruct (H m M) as [X Y]. rewrite A by auto. split; auto. rewrite L by auto. destruct Y as [Y|[Y|(l & L1 & L2 & L3 & L4)]]; auto. right. right. exists l. rewrite C by auto. auto.
Qed.
(** decrementing keeps the invariant, touches nothing that is held, and finishes *)
Lemma dec_ok : forall sh, wf sh -> forall f k n s ex P rem R, inv sh s ex (addp P k n) rem -> heldp sh s ex P R -> exok sh ex R -> alives sh s < f ->
  exists s', dec sh f k n s = Ok s' /\ inv sh s' ex P rem /\ heldp sh s' ex P R /\ frame sh s s'.
Proof.
  intros sh W. induction f as [|f IH]; intros k n s ex P rem R I H X L; [lia|].
  assert (C1 : cnt s k n = refs sh s ex k n + P k n + 1).
  { rewrite (I_cnt _ _ _ _ _ I). unfold addp. rewrite eqb_reflx, Nat.eqb_refl. cbn [andb b2n]. lia. }
  assert (A : alive s n = true) by (destruct (alive s n) eqn:A; auto; pose proof (I_dead _ _ _ _ _ I k n A); lia).
  assert (NL : loose s n = false) by (destruct (loose s n) eqn:E; auto; apply (I_loose _ _ _ _ _ I n A) in E; rewrite zero_iff in E; specialize (E k); lia).
  cbn [dec]. rewrite A. cbn [negb]. set (s1 := setn s k n (cnt s k n - 1)).
  assert (CN : forall j m, cnt s1 j m = refs sh s ex j m + P j m).
  { intros j m. cbn [s1 setn cnt]. rewrite upk_cases. destruct (Bool.eqb j k && Nat.eqb m n) eqn:E.
    - apply andb_true_iff in E. destruct E as [E1 E2]. apply eqb_prop in E1. apply Nat.eqb_eq in E2. subst. lia.
    - rewrite (I_cnt _ _ _ _ _ I). unfold addp. replace (Bool.eqb k j && Nat.eqb n m) with false; [cbn [b2n]; lia|]. rewrite (Nat.eqb_sym n m), <- E. f_equal. destruct k, j; auto. }
  destruct (zero s1 n) eqn:Z.
  2:{ exists s1. split; auto. split; [|split].
      - constructor; try (apply I).
        + intros j m. rewrite CN. reflexivity.
        + intros j m D. cbn [s1 setn alive cnt] in *. rewrite upk_cases. destruct (Bool.eqb j k && Nat.eqb m n) eqn:E; [|apply I; auto]. apply andb_true_iff in E. destruct E as [_ E]. apply Nat.eqb_eq in E. congruence.
        + intros m M. cbn [s1 setn alive loose] in *. destruct (Nat.eq_dec m n) as [->|D]; [rewrite NL, Z; split; discriminate|]. rewrite (I_loose _ _ _ _ _ I m M). unfold zero, s1. cbn [setn cnt]. rewrite !upk_cases. apply Nat.eqb_neq in D. rewrite D, !andb_false_r. reflexivity.
      - apply (heldp_lower _ s); auto.
      - constructor; auto. }
  assert (NR : ~ R n).
  { intros M. rewrite zero_iff in Z. destruct (H n M) as [_ [Y|[[j Y]|(l & L1 & L2 & L3 & L4)]]]; [congruence|specialize (Z j); rewrite CN in Z; lia|]. specialize (Z (kind sh l)). rewrite CN in Z. assert (0 < refs sh s ex (kind sh l) n) by (apply refs_pos; eauto). lia. }
  assert (I1 : inv sh (die s1 n) ex P (fields sh n ++ rem)).
  { constructor.
    - intros j m. cbn [die cnt]. rewrite CN. reflexivity.
    - intros j m D. cbn [die alive cnt] in *. destruct (Nat.eq_dec m n) as [->|E]; [apply zero_iff; auto|]. rewrite upd_other in D by auto. cbn [s1 setn alive cnt] in *. rewrite upk_cases. apply Nat.eqb_neq in E. rewrite E, andb_false_r. apply I. auto.
    - intros m M. cbn [die alive loose] in *. destruct (Nat.eq_dec m n) as [->|E]; [rewrite upd_same in M; discriminate|]. rewrite upd_other in M by auto. cbn [s1 setn alive loose] in *. rewrite (I_loose _ _ _ _ _ I m M). unfold zero. cbn [die s1 setn cnt]. rewrite !upk_cases. apply Nat.eqb_neq in E. rewrite E, !andb_false_r. reflexivity.
    - intros m M. cbn [die alive loose s1 setn] in *. destruct (Nat.eq_dec m n) as [->|E]; auto. rewrite upd_other in M by auto. apply I. auto.
    - apply I.
    - intros m M. cbn [die alive made] in *. destruct (Nat.eq_dec m n) as [->|E]; [rewrite upd_same in M; discriminate|]. rewrite upd_other in M by auto. apply I. auto.
    - intros m. cbn [die freed made alive s1 setn]. destruct (Nat.eq_dec m n) as [->|E]; [|rewrite !upd_other by auto; apply I]. rewrite !upd_same, (I_freed _ _ _ _ _ I), (I_made _ _ _ _ _ I n A), A. reflexivity.
    - intros l o L1 L2 L3 L4. cbn [die alive cont s1 setn] in *. assert (~ In l rem) by (intros Q; apply L4, in_or_app; auto). destruct (Nat.eq_dec o n) as [->|E]; [exfalso; apply L4, in_or_app; left; apply W; auto|]. rewrite upd_other in L3 by auto. eapply I; eauto. }
  assert (H1 : heldp sh (die s1 n) ex P R).
  { apply (heldp_lower _ s); auto. intros m M. cbn [die alive s1 setn]. apply upd_other. congruence. }
  assert (F1 : frame sh s (die s1 n)).
  { constructor; auto. intros m M. cbn [die alive] in M. destruct (Nat.eq_dec m n) as [->|E]; auto. rewrite upd_other in M by auto. auto. }
  assert (L1 : alives sh (die s1 n) < f).
  { assert (alives sh (die s1 n) < alives sh s1) by (apply alives_die; auto; apply (I_nodes _ _ _ _ _ I), (I_made _ _ _ _ _ I); auto). unfold alives at 2 in H0. cbn [s1 setn alive] in H0. fold (alives sh s) in H0. lia. }
  assert (D1 : alive (die s1 n) n = false) by (cbn [die alive]; apply upd_same).
  assert (FS : forall l, In l (fields sh n) -> In l (locs sh) /\ owner sh l = Some n) by (intros l Q; apply W; auto).
  clear C1 CN Z. revert I1 H1 F1 L1 D1 FS. generalize (die s1 n) as s2. clear s1. generalize (fields sh n) as fs. induction fs as [|l fs IHf]; intros s2 I1 H1 F1 L1 D1 FS.
  - exists s2. cbn [fold_left]. auto.
  - cbn [fold_left]. destruct (FS l (or_introl eq_refl)) as [Ll Lo]. assert (NE : ~ In l ex) by (intros Q; destruct (X l Q) as [Y|(o & Y & Z)]; [congruence|]; assert (o = n) by congruence; subst; auto).
    destruct (cont s2 l) as [m|] eqn:E.
    + set (s3 := setc s2 l None).
      assert (I3 : inv sh s3 ex (addp P (kind sh l) m) (fs ++ rem)).
      { constructor; try apply I1.
        - intros j q. cbn [s3 setc cnt]. rewrite (I_cnt _ _ _ _ _ I1). rewrite (refs_split sh s2 ex j q l (W_locs _ W) Ll NE), (refs_split sh s3 ex j q l (W_locs _ W) Ll NE). rewrite (refs_ext sh s2 s3 (l :: ex)) by (intros y _ Y; cbn [s3 setc cont]; apply upd_other; intros ->; apply Y; left; auto).
          unfold addp, hit at 1 2. rewrite E. cbn [s3 setc cont]. rewrite upd_same. cbn [is_some]. rewrite andb_false_r. cbn [b2n]. lia.
        - intros y o Y1 Y2 Y3 Y4. cbn [s3 setc cont alive] in *. destruct (Nat.eq_dec y l) as [->|D]; [apply upd_same|]. rewrite upd_other by auto. eapply (I_field _ _ _ _ _ I1); eauto. cbn [app]. intros [Q|Q]; [congruence|auto]. }
      assert (H3 : heldp sh s3 ex P R).
      { apply (heldp_lower _ s2); auto. intros y Y. cbn [s3 setc cont]. apply upd_other. intros ->. destruct Y as [Y|(o & Y1 & Y2)]; [congruence|]. assert (o = n) by congruence. subst. auto. }
      assert (F3 : frame sh s2 s3).
      { constructor; auto. intros y Y. cbn [s3 setc cont]. apply upd_other. intros ->. unfold live in Y. rewrite Lo in Y. cbn [s3 setc alive] in Y. congruence. }
      destruct (IH (kind sh l) m s3 ex P (fs ++ rem) R I3 H3 X) as (s4 & Q1 & Q2 & Q3 & Q4); [exact L1|]. rewrite Q1. apply IHf; auto.
      * eapply frame_trans; [exact F1|]. eapply frame_trans; eauto.
      * pose proof (alives_frame _ _ _ Q4). pose proof (alives_frame _ _ _ F3). lia.
      * destruct (alive s4 n) eqn:B; auto. apply Q4 in B. apply F3 in B. congruence.
      * intros y Y. apply FS. right. auto.
    + apply IHf; auto; [|intros y Y; apply FS; right; auto]. constructor; try apply I1. intros y o Y1 Y2 Y3 Y4. destruct (Nat.eq_dec y l) as [->|D]; auto. eapply (I_field _ _ _ _ _ I1); eauto. cbn [app]. intros [Q|Q]; [congruence|auto].
Qed.
Ltac sp := repeat match goal with |- _ /\ _ => split end.
Definition popt (P : bool -> node -> nat) (k : bool) (x : option node) : bool -> node -> nat := match x with None => P | Some n => addp P k n end.
Lemma popt_val : forall P k x j m, popt P k x j m = P j m + b2n (Bool.eqb k j && is_some x m).
Proof. intros P k [n|] j m; cbn [popt is_some]; [reflexivity|]. rewrite andb_false_r. cbn [b2n]. lia. Qed.
Lemma inv_ext : forall sh s ex P P' rem, inv sh s ex P rem -> (forall j m, P j m = P' j m) -> inv sh s ex P' rem.
Proof. intros sh s ex P P' rem I E. constructor; try apply I. intros k n. rewrite <- E. apply I. Qed.
Definition rest (sh : shape) (s : st) : Prop := inv sh s [] nop [].
(** leaving a location out of the count, and putting it back with a new value *)
Lemma inv_out : forall sh s l P rem, wf sh -> inv sh s [] P rem -> In l (locs sh) -> inv sh s [l] (popt P (kind sh l) (cont s l)) rem.
Proof.
  intros sh s l P rem W I L. constructor; try apply I. intros j m. rewrite (I_cnt _ _ _ _ _ I), (refs_split sh s [] j m l (W_locs _ W) L) by auto. rewrite popt_val. unfold hit. lia.
Qed.
Lemma inv_in : forall sh s l x P rem, wf sh -> inv sh s [l] (popt P (kind sh l) x) rem -> In l (locs sh) -> live sh s l = true -> inv sh (setc s l x) [] P rem.
Proof.
  intros sh s l x P rem W I L V. constructor; try apply I.
  - intros j m. cbn [setc cnt]. rewrite (I_cnt _ _ _ _ _ I), popt_val. rewrite (refs_split sh (setc s l x) [] j m l (W_locs _ W) L) by auto. rewrite (refs_ext sh s (setc s l x) [l]) by (intros y _ Y; cbn [setc cont]; apply upd_other; intros ->; apply Y; left; auto). unfold hit. cbn [setc cont]. rewrite upd_same. lia.
  - intros y o A B C D. cbn [setc cont alive] in *. destruct (Nat.eq_dec y l) as [->|E]; [unfold live in V; rewrite B in V; congruence|]. rewrite upd_other by auto. eapply I; eauto.
Qed.
Lemma dec_opt_ok : forall sh k x s ex P rem R, wf sh -> inv sh s ex (popt P k x) rem -> heldp sh s ex P R -> exok sh ex R ->
  exists s', dec_opt sh k x s = Ok s' /\ inv sh s' ex P rem /\ heldp sh s' ex P R /\ frame sh s s'.
Proof.
  intros sh k [n|] s ex P rem R W I H X; cbn [dec_opt popt] in *.
  - apply dec_ok; auto. unfold fuel, alives. assert (length (filter (alive s) (nodes sh)) <= length (nodes sh)); [|lia]. clear. induction (nodes sh); auto. cbn [filter]. destruct (alive s a); cbn [length]; lia.
  - exists s. split; auto. split; auto. split; auto. apply frame_refl.
Qed.
Lemma inc_ok : forall sh s ex P rem R k n, inv sh s ex P rem -> alive s n = true -> heldp sh s ex nop R ->
  exists s', inc k n s = Ok s' /\ inv sh s' ex (addp P k n) rem /\ heldp sh s' ex (addp nop k n) R /\ (forall l, cont s' l = cont s l) /\ (forall m, alive s' m = alive s m) /\ (forall m, made s' m = made s m).
Proof.
  intros sh s ex P rem R k n I A H. unfold inc. rewrite A. eexists. split; [reflexivity|]. split; [|split; [|sp; auto]].
  - assert (C : forall j m, cnt (setl (setn s k n (S (cnt s k n))) n false) j m = cnt s j m + b2n (Bool.eqb k j && Nat.eqb n m)).
    { intros j m. cbn [setl setn cnt]. rewrite upk_cases. rewrite (Nat.eqb_sym n m). destruct (Nat.eqb m n) eqn:E; [apply Nat.eqb_eq in E; subst m|rewrite !andb_false_r; cbn [b2n]; lia]. rewrite !andb_true_r. destruct k, j; cbn [Bool.eqb b2n]; lia. }
    constructor; try apply I.
    + intros j m. rewrite C, (I_cnt _ _ _ _ _ I). unfold addp. change (refs sh (setl (setn s k n (S (cnt s k n))) n false) ex j m) with (refs sh s ex j m). lia.
    + intros j m D. rewrite C. cbn [setl setn alive] in D. rewrite (I_dead _ _ _ _ _ I j m D). replace (Nat.eqb n m) with false; [rewrite andb_false_r; reflexivity|]. symmetry. apply Nat.eqb_neq. intros ->. congruence.
    + intros m M. cbn [setl setn loose alive] in *. destruct (Nat.eq_dec m n) as [->|D].
      * rewrite upd_same. split; [discriminate|]. rewrite zero_iff. intros Z. specialize (Z k). rewrite C, eqb_reflx, Nat.eqb_refl in Z. cbn [andb b2n] in Z. lia.
      * rewrite upd_other by auto. rewrite (I_loose _ _ _ _ _ I m M), !zero_iff. split; intros Z j; specialize (Z j); rewrite C in *; replace (Nat.eqb n m) with false in *; try (symmetry; apply Nat.eqb_neq; auto); rewrite andb_false_r in *; cbn [b2n] in *; lia.
    + intros m M. cbn [setl setn loose alive] in *. rewrite upd_other by congruence. apply I. auto.
  - intros m M. destruct (H m M) as [B Y]. split; auto. destruct (Nat.eq_dec m n) as [->|D].
    + right. left. exists k. unfold addp. rewrite eqb_reflx, Nat.eqb_refl. cbn [andb b2n]. lia.
    + destruct Y as [Y|[[j Y]|Y]]; [|unfold nop in Y; lia|auto]. left. cbn [setl loose setn]. rewrite upd_other; auto.
Qed.
Lemma safe_R : forall sh s ex l, safe sh s ex l -> exists R, heldp sh s ex nop R /\ exok sh [l] R /\ In l (locs sh).
Proof.
  intros sh s ex l [L [N|(R & o & A & B & C)]].
  - exists (fun _ => False). split; [intros m []|]. split; auto. intros y [<-|[]]. auto.
  - exists R. split; [|split; auto; intros y [<-|[]]; right; eauto]. intros m M. destruct (C m M) as [X [Y|Y]]; auto.
Qed.
Lemma exok_live : forall sh s ex P R l, heldp sh s ex P R -> exok sh [l] R -> live sh s l = true.
Proof. intros sh s ex P R l H X. unfold live. destruct (X l (or_introl eq_refl)) as [-> | (o & -> & B)]; auto. apply H. auto. Qed.
Record result (sh : shape) (s s' : st) (l : loc) (x : option node) : Prop := mkresult {
  Q_rest : rest sh s';
  Q_cont : cont s' l = x;
  Q_live : live sh s' l = true;
  Q_others : forall y, y <> l -> live sh s' y = true -> cont s' y = cont s y;
  Q_alive : forall n, alive s' n = true -> alive s n = true;
  Q_made : forall n, made s' n = made s n }.
Lemma assign_ok : forall sh s l x, wf sh -> rest sh s -> safe sh s [l] l -> (forall n, x = Some n -> alive s n = true) -> exists s', assign sh l x s = Ok s' /\ result sh s s' l x.
Proof.
  intros sh s l x W I S A. destruct (safe_R _ _ _ _ S) as (R & H & X & L). unfold assign, at_. rewrite (exok_live _ _ _ _ _ _ H X).
  assert (I0 := inv_out sh s l nop [] W I L).
  assert (IN : exists s1, inc_opt (kind sh l) x s = Ok s1 /\ inv sh s1 [l] (popt (popt nop (kind sh l) (cont s l)) (kind sh l) x) [] /\ heldp sh s1 [l] (popt nop (kind sh l) x) R /\ (forall y, cont s1 y = cont s y) /\ (forall m, alive s1 m = alive s m) /\ (forall m, made s1 m = made s m)).
  { destruct x as [n|]; cbn [inc_opt popt]; [apply inc_ok; auto|]. exists s. sp; auto. }
  destruct IN as (s1 & E1 & I1 & H1 & C1 & A1 & M1). rewrite E1. cbn [bind].
  destruct (dec_opt_ok sh (kind sh l) (cont s1 l) s1 [l] (popt nop (kind sh l) x) [] R W) as (s2 & E2 & I2 & H2 & F2); auto.
  { eapply inv_ext; [exact I1|]. intros j m. rewrite !popt_val, C1. lia. }
  rewrite E2. cbn [bind]. pose proof (exok_live _ _ _ _ _ _ H2 X) as V2. rewrite V2. eexists. split; [reflexivity|]. constructor.
  - apply inv_in; auto.
  - cbn [setc cont]. apply upd_same.
  - exact V2.
  - intros y Y V. cbn [setc cont]. rewrite upd_other by auto. rewrite (F_cont _ _ _ F2) by exact V. apply C1.
  - intros n N. rewrite <- A1. apply F2. exact N.
  - intros n. cbn [setc made]. rewrite (F_made _ _ _ F2). apply M1.
Qed.
Lemma null_ok : forall sh s l, wf sh -> rest sh s -> safe sh s [l] l -> exists s', assign_null sh l s = Ok s' /\ result sh s s' l None.
Proof.
  intros sh s l W I S. destruct (safe_R _ _ _ _ S) as (R & H & X & L). unfold assign_null, at_. rewrite (exok_live _ _ _ _ _ _ H X).
  assert (I0 := inv_out sh s l nop [] W I L). destruct (dec_opt_ok sh (kind sh l) (cont s l) s [l] nop [] R W) as (s2 & E2 & I2 & H2 & F2); auto.
  rewrite E2. cbn [bind]. pose proof (exok_live _ _ _ _ _ _ H2 X) as V2. rewrite V2. eexists. split; [reflexivity|]. constructor.
  - apply inv_in; auto.
  - cbn [setc cont]. apply upd_same.
  - exact V2.
  - intros y Y V. cbn [setc cont]. rewrite upd_other by auto. apply (F_cont _ _ _ F2). exact V.
  - intros n N. apply F2. exact N.
  - intros n. cbn [setc made]. apply F2.
Qed.
Lemma inv_clear : forall sh s l P rem, wf sh -> inv sh s [] P rem -> In l (locs sh) -> live sh s l = true -> inv sh (setc s l None) [] (popt P (kind sh l) (cont s l)) rem.
Proof.
  intros sh s l P rem W I L V. apply inv_in; auto. eapply inv_ext; [apply inv_out; eauto|]. intros j m. rewrite !popt_val. cbn [is_some]. rewrite andb_false_r. cbn [b2n]. lia.
Qed.
Lemma destroy_ok : forall sh s l, wf sh -> rest sh s -> safe sh s [l] l -> exists s', destroy sh l s = Ok s' /\ result sh s s' l None.
Proof.
  intros sh s l W I S. destruct (safe_R _ _ _ _ S) as (R & H & X & L). unfold destroy, at_. pose proof (exok_live _ _ _ _ _ _ H X) as V. rewrite V.
  assert (I1 := inv_clear sh s l nop [] W I L V).
  assert (H1 : heldp sh (setc s l None) [] nop R).
  { intros m M. destruct (H m M) as [A [B|[[j B]|(y & Y1 & Y2 & Y3 & Y4)]]]; split; auto; [unfold nop in B; lia|]. right. right. exists y. split; auto. split; auto. split; auto. cbn [setc cont]. rewrite upd_other; auto. intros ->. apply Y2. left. auto. }
  destruct (dec_opt_ok sh (kind sh l) (cont s l) (setc s l None) [] nop [] R W) as (s2 & E2 & I2 & H2 & F2); auto; [intros y []|].
  exists s2. split; auto. assert (V2 := exok_live _ _ _ _ _ _ H2 X). constructor; auto.
  - rewrite (F_cont _ _ _ F2) by auto. cbn [setc cont]. apply upd_same.
  - intros y Y VY. rewrite (F_cont _ _ _ F2) by auto. cbn [setc cont]. apply upd_other. auto.
  - intros n N. apply (F_alive _ _ _ F2) in N. exact N.
  - intros n. rewrite (F_made _ _ _ F2). reflexivity.
Qed.
(** moving a value from one location to another of the same kind *)
Lemma same_opt_eq : forall x y, same_opt x y = true -> x = y.
Proof. intros [a|] [b|] H; try discriminate; auto. apply Nat.eqb_eq in H. congruence. Qed.
Lemma hit_set : forall sh s l x k n y, hit sh (setc s l x) k n y = if Nat.eqb y l then Bool.eqb (kind sh l) k && is_some x n else hit sh s k n y.
Proof. intros. unfold hit. cbn [setc cont]. unfold upd. destruct (Nat.eqb y l) eqn:E; auto. apply Nat.eqb_eq in E. subst. auto. Qed.
Lemma move_ok : forall sh s l p, wf sh -> rest sh s -> l <> p -> kind sh l = kind sh p -> safe2 sh s [l] l p -> exists s', move sh l p s = Ok s' /\ rest sh s' /\ live sh s' l = true /\ live sh s' p = true /\ cont s' l = cont s p /\ (cont s l <> cont s p -> cont s' p = None) /\
  (forall y, y <> l -> y <> p -> live sh s' y = true -> cont s' y = cont s y) /\ (forall n, alive s' n = true -> alive s n = true) /\ (forall n, made s' n = made s n).
Proof.
  intros sh s l p W I D K (L & Lp & R & H & Xl & Xp).
  assert (HP : heldp sh s [l] nop R) by (intros m M; destruct (H m M) as [X [Y|Y]]; auto).
  assert (XL : exok sh [l] R) by (intros y [<-|[]]; auto). assert (XP : exok sh [p] R) by (intros y [<-|[]]; auto).
  unfold move, at_. pose proof (exok_live _ _ _ _ _ _ HP XL) as Vl. pose proof (exok_live _ _ _ _ _ _ HP XP) as Vp. rewrite Vl, Vp. destruct (same_opt (cont s l) (cont s p)) eqn:E.
  - apply same_opt_eq in E. exists s. sp; auto. intros Q. congruence.
  - destruct (dec_opt_ok sh (kind sh l) (cont s l) s [l] nop [] R W) as (s2 & E2 & I2 & H2 & F2); auto; [apply inv_out; auto|]. rewrite E2. cbn [bind]. pose proof (exok_live _ _ _ _ _ _ H2 XL) as V2. pose proof (exok_live _ _ _ _ _ _ H2 XP) as V3. rewrite V2, V3. eexists. split; [reflexivity|].
    assert (CP : cont s2 p = cont s p) by (apply F2; auto). split; [|split; [exact V2|split; [exact V3|split; [|split; [|split; [|split]]]]]].
    + assert (J : inv sh (setc s2 p None) [l] (popt nop (kind sh l) (cont s2 p)) []).
      { constructor; try apply I2.
        - intros j m. cbn [setc cnt]. rewrite (I_cnt _ _ _ _ _ I2). assert (NP : ~ In p [l]) by (intros [Q|[]]; auto). rewrite (refs_split sh s2 [l] j m p (W_locs _ W) Lp NP), (refs_split sh (setc s2 p None) [l] j m p (W_locs _ W) Lp NP).
          rewrite (refs_ext sh s2 (setc s2 p None) [p; l]) by (intros y _ Y; cbn [setc cont]; apply upd_other; intros ->; apply Y; left; auto). rewrite hit_set, Nat.eqb_refl. cbn [is_some]. rewrite andb_false_r. cbn [b2n]. rewrite popt_val. unfold hit. rewrite K. unfold nop. lia.
        - intros y o A B C _. cbn [setc cont alive] in *. destruct (Nat.eq_dec y p) as [->|Q]; [apply upd_same|]. rewrite upd_other by auto. eapply I2; eauto. }
      apply inv_in in J; auto. constructor; try apply J.
      * intros j m. pose proof (I_cnt _ _ _ _ _ J j m) as Q. cbn [setc cnt] in *. rewrite Q. f_equal. apply refs_ext. intros y _ _. cbn [setc cont]. unfold upd. destruct (Nat.eqb y l) eqn:Y1, (Nat.eqb y p) eqn:Y2; auto. apply Nat.eqb_eq in Y1, Y2. congruence.
      * intros y o A B C _. cbn [setc cont alive] in *. destruct (Nat.eq_dec y p) as [->|Q]; [apply upd_same|]. rewrite upd_other by auto. destruct (Nat.eq_dec y l) as [->|Q2]; [unfold live in V2; rewrite B in V2; congruence|]. rewrite upd_other by auto. eapply I2; eauto.
    + cbn [setc cont]. rewrite upd_other, upd_same; auto.
    + intros _. cbn [setc cont]. apply upd_same.
    + intros y Y1 Y2 V. cbn [setc cont]. rewrite !upd_other by auto. apply (F_cont _ _ _ F2). exact V.
    + intros n N. apply F2. exact N.
    + intros n. apply F2.
Qed.
Lemma swap_ok : forall sh s l p, wf sh -> rest sh s -> l <> p -> kind sh l = kind sh p -> In l (locs sh) -> In p (locs sh) -> live sh s l = true -> live sh s p = true ->
  exists s', swap sh l p s = Ok s' /\ rest sh s' /\ cont s' l = cont s p /\ cont s' p = cont s l /\ (forall y, y <> l -> y <> p -> cont s' y = cont s y) /\ alive s' = alive s /\ made s' = made s.
Proof.
  intros sh s l p W I D K L Lp Vl Vp. unfold swap, at_. rewrite Vl, Vp. eexists. split; [reflexivity|]. sp; try (cbn [setc cont]; try rewrite upd_other by auto; apply upd_same).
  - constructor; try apply I.
    + intros j m. cbn [setc cnt]. rewrite (I_cnt _ _ _ _ _ I). f_equal. assert (NP : ~ In p [l]) by (intros [Q|[]]; auto). rewrite (refs_split sh s [] j m l (W_locs _ W) L), (refs_split sh s [l] j m p (W_locs _ W) Lp NP) by auto. rewrite (refs_split sh (setc _ _ _) [] j m l (W_locs _ W) L), (refs_split sh (setc _ _ _) [l] j m p (W_locs _ W) Lp NP) by auto.
      rewrite (refs_ext sh s (setc _ _ _) [p; l]) by (intros y _ Y; cbn [setc cont]; rewrite !upd_other; auto; intros ->; apply Y; [right|]; left; auto). rewrite !hit_set, !Nat.eqb_refl. replace (Nat.eqb l p) with false by (symmetry; apply Nat.eqb_neq; auto). unfold hit. rewrite K. lia.
    + intros y o A B C _. cbn [setc cont alive] in *. destruct (Nat.eq_dec y p) as [->|Q]; [unfold live in Vp; rewrite B in Vp; congruence|]. destruct (Nat.eq_dec y l) as [->|Q2]; [unfold live in Vl; rewrite B in Vl; congruence|]. rewrite !upd_other by auto. eapply I; eauto.
  - intros y Y1 Y2. cbn [setc cont]. rewrite !upd_other; auto.
  - reflexivity.
  - reflexivity.
Qed.
Lemma release_ok : forall sh s l, wf sh -> rest sh s -> In l (locs sh) -> live sh s l = true -> exists s', release sh l s = Ok s' /\ rest sh s' /\ cont s' l = None /\ (forall y, y <> l -> cont s' y = cont s y) /\ alive s' = alive s /\ made s' = made s.
Proof.
  intros sh s l W I L V. unfold release, at_. rewrite V. destruct (cont s l) as [n|] eqn:C; [|exists s; sp; auto].
  assert (A : alive s n = true) by (eapply live_in; eauto). unfold dec_keep. rewrite A. cbn [bind]. set (s1 := setn s (kind sh l) n (cnt s (kind sh l) n - 1)).
  assert (I1 := inv_clear sh s l nop [] W I L V). rewrite C in I1. cbn [popt] in I1.
  assert (CK : cnt s (kind sh l) n = refs sh (setc s l None) [] (kind sh l) n + 1).
  { pose proof (I_cnt _ _ _ _ _ I1 (kind sh l) n) as Q. cbn [setc cnt] in Q. rewrite Q. unfold addp, nop. rewrite eqb_reflx, Nat.eqb_refl. cbn [andb b2n]. lia. }
  assert (CO : forall j m, Bool.eqb j (kind sh l) && Nat.eqb m n = false -> cnt s j m = refs sh (setc s l None) [] j m).
  { intros j m Q. pose proof (I_cnt _ _ _ _ _ I1 j m) as T. cbn [setc cnt] in T. rewrite T. unfold addp, nop. replace (Bool.eqb (kind sh l) j && Nat.eqb n m) with false; [cbn [b2n]; lia|]. rewrite <- Q, (Nat.eqb_sym n m). destruct (kind sh l), j; auto. }
  assert (C1 : forall j m, cnt s1 j m = refs sh (setc s l None) [] j m).
  { intros j m. cbn [s1 setn cnt]. rewrite upk_cases. destruct (Bool.eqb j (kind sh l) && Nat.eqb m n) eqn:E; [|apply CO; auto]. apply andb_true_iff in E. destruct E as [E1 E2]. apply eqb_prop in E1. apply Nat.eqb_eq in E2. subst. lia. }
  assert (NL : loose s n = false) by (destruct (loose s n) eqn:E; auto; apply (I_loose _ _ _ _ _ I n A) in E; rewrite zero_iff in E; specialize (E (kind sh l)); lia).
  set (s2 := if zero s1 n then setl s1 n true else s1).
  assert (S2 : cont s2 = cont s /\ (forall j m, cnt s2 j m = cnt s1 j m) /\ alive s2 = alive s /\ made s2 = made s /\ freed s2 = freed s /\ (forall m, loose s2 m = if Nat.eqb m n then zero s1 n else loose s m)).
  { unfold s2. destruct (zero s1 n) eqn:Z; sp; auto; intros m; cbn [setl s1 setn loose]; unfold upd; destruct (Nat.eqb m n) eqn:E; auto. apply Nat.eqb_eq in E. subst. auto. }
  destruct S2 as (X1 & X2 & X3 & X4 & X5 & X6). clearbody s2.
  exists (setc s2 l None). split; [reflexivity|]. split; [|split; [cbn [setc cont]; apply upd_same|split; [intros y Y; cbn [setc cont]; rewrite upd_other by auto; rewrite X1; auto|split; [exact X3|exact X4]]]].
  constructor; cbn [setc cont cnt alive made freed loose]; rewrite ?X3, ?X4, ?X5.
  - intros j m. unfold nop. rewrite X2, C1, Nat.add_0_r. apply refs_ext. intros y _ _. cbn [setc cont]. rewrite X1. auto.
  - intros j m M. rewrite X2. cbn [s1 setn cnt]. rewrite upk_cases. destruct (Bool.eqb j (kind sh l) && Nat.eqb m n) eqn:E; [|apply I; auto]. apply andb_true_iff in E. destruct E as [_ E]. apply Nat.eqb_eq in E. congruence.
  - intros m M. rewrite X6, !zero_iff. cbn [setc cnt]. destruct (Nat.eqb m n) eqn:E.
    + apply Nat.eqb_eq in E. subst m. rewrite zero_iff. split; intros Q j; specialize (Q j); rewrite X2 in *; auto.
    + rewrite (I_loose _ _ _ _ _ I m M), zero_iff. split; intros Q j; specialize (Q j); rewrite X2 in *; cbn [s1 setn cnt] in *; rewrite upk_cases in *; rewrite E, andb_false_r in *; auto.
  - intros m M. rewrite X6. destruct (Nat.eqb m n) eqn:E; [apply Nat.eqb_eq in E; congruence|]. apply I. auto.
  - apply I.
  - apply I.
  - apply I.
  - intros y o Y1 Y2 Y3 Y4. destruct (Nat.eq_dec y l) as [->|Q]; [apply upd_same|]. rewrite upd_other by auto. rewrite X1. eapply I; eauto.
Qed.
Lemma make_ok : forall sh s n, wf sh -> rest sh s -> In n (nodes sh) -> made s n = false -> rest sh (make s n).
Proof.
  intros sh s n W I N M. assert (A : alive s n = false) by (destruct (alive s n) eqn:A; auto; apply (I_made _ _ _ _ _ I) in A; congruence). constructor; cbn [make cont cnt alive made freed loose].
  - intros j m. apply I.
  - intros j m D. destruct (Nat.eq_dec m n) as [->|E]; [apply I; auto|]. rewrite upd_other in D by auto. apply I; auto.
  - intros m D. change (zero (make s n) m) with (zero s m). destruct (Nat.eq_dec m n) as [->|E].
    + rewrite upd_same, zero_iff. split; auto. intros _ j. apply I; auto.
    + rewrite upd_other in D by auto. rewrite upd_other by auto. apply I; auto.
  - intros m D. destruct (Nat.eq_dec m n) as [->|E]; [rewrite upd_same in D; discriminate|]. rewrite upd_other in * by auto. apply I; auto.
  - intros m D. destruct (Nat.eq_dec m n) as [->|E]; auto. rewrite upd_other in D by auto. apply I; auto.
  - intros m D. destruct (Nat.eq_dec m n) as [->|E]; [apply upd_same|]. rewrite upd_other in * by auto. apply I; auto.
  - intros m. destruct (Nat.eq_dec m n) as [->|E]; [rewrite !upd_same, (I_freed _ _ _ _ _ I), M; reflexivity|]. rewrite !upd_other by auto. apply I.
  - intros l o L1 L2 L3 L4. destruct (Nat.eq_dec o n) as [->|E]; [rewrite upd_same in L3; discriminate|]. rewrite upd_other in L3 by auto. eapply I; eauto.
Qed.
Lemma copy_ok : forall sh ps s R ex, wf sh -> rest sh s -> heldp sh s ex nop R -> (forall p, In p ps -> In (fst p) (locs sh) /\ In (snd p) (locs sh) /\ live sh s (snd p) = true /\ cont s (snd p) = None) -> NoDup (map snd ps) -> (forall a b, In a (map fst ps) -> In b (map snd ps) -> a <> b) ->
  exists s', copy sh ps s = Ok s' /\ rest sh s' /\ heldp sh s' ex nop R /\ (forall p, In p ps -> cont s' (snd p) = cont s (fst p)) /\ (forall y, ~ In y (map snd ps) -> cont s' y = cont s y) /\ (forall m, alive s' m = alive s m) /\ (forall m, made s' m = made s m) /\ (forall m, loose s' m = loose s m).
Proof.
  intros sh ps. induction ps as [|[a b] ps IH]; intros s R ex W I H P N D; unfold copy; cbn [fold_left].
  - exists s. sp; auto. intros p [].
  - destruct (P (a, b) (or_introl eq_refl)) as (La & Lb & Vb & Cb). cbn [fst snd] in *. cbn [bind].
    assert (ST : exists s1, bind (inc_opt (kind sh b) (cont s a) s) (fun s2 => Ok (setc s2 b (cont s a))) = Ok s1 /\ rest sh s1 /\ heldp sh s1 ex nop R /\ cont s1 b = cont s a /\ (forall y, y <> b -> cont s1 y = cont s y) /\ (forall m, alive s1 m = alive s m) /\ (forall m, made s1 m = made s m) /\ (forall m, loose s1 m = loose s m)).
    { assert (HB : forall s2, (forall y, cont s2 y = cont s y) -> (forall m, alive s2 m = alive s m) -> (forall m, loose s2 m = loose s m) -> heldp sh (setc s2 b (cont s a)) ex nop R).
      { intros s2 C A Lo m M. destruct (H m M) as [X Y]. cbn [setc alive loose cont]. rewrite A, Lo. split; auto. destruct Y as [Y|[Y|(y & Y1 & Y2 & Y3 & Y4)]]; auto. right. right. exists y. split; auto. split; auto. split; auto. rewrite upd_other; [rewrite C; auto|]. intros ->. congruence. }
      destruct (cont s a) as [n|] eqn:E; cbn [inc_opt].
      - assert (A : alive s n = true) by exact (live_in sh s [] nop [] a n I La (in_nil (a:=a)) E).
        assert (NLo : loose s n = false).
        { destruct (loose s n) eqn:Q; auto. apply (I_loose _ _ _ _ _ I n A) in Q. rewrite zero_iff in Q. specialize (Q (kind sh a)). rewrite (I_cnt _ _ _ _ _ I) in Q. assert (0 < refs sh s [] (kind sh a) n) by (apply refs_pos; exists a; auto). lia. }
        destruct (inc_ok sh s [b] nop [] (fun _ => False) (kind sh b) n) as (s1 & E1 & I1 & _ & C1 & A1 & M1); auto; [|intros m []|].
        { eapply inv_ext; [apply inv_out; eauto|]. intros j m. rewrite popt_val, Cb. cbn [is_some]. rewrite andb_false_r. cbn [b2n]. lia. }
        assert (L1 : forall m, loose s1 m = loose s m).
        { unfold inc in E1. rewrite A in E1. injection E1 as <-. intros m. cbn [setl loose setn]. destruct (Nat.eq_dec m n) as [->|Q]; [rewrite upd_same; auto|rewrite upd_other; auto]. }
        rewrite E1. cbn [bind]. eexists. split; [reflexivity|]. split; [|split; [apply HB; auto|split; [cbn [setc cont]; apply upd_same|split; [intros y Y; cbn [setc cont]; rewrite upd_other by auto; apply C1|split; [exact A1|split; [exact M1|exact L1]]]]]].
        apply inv_in; auto. unfold live in *. destruct (owner sh b); auto. rewrite A1. auto.
      - cbn [bind]. eexists. split; [reflexivity|]. split; [|split; [apply HB; auto|split; [cbn [setc cont]; apply upd_same|split; [intros y Y; cbn [setc cont]; apply upd_other; auto|sp; auto]]]].
        pose proof (inv_clear sh s b nop [] W I Lb Vb) as Q. rewrite Cb in Q. exact Q. }
    destruct ST as (s1 & E1 & I1 & H1 & C1 & C2 & A1 & M1 & L1). rewrite E1. cbn [map fst snd] in *. inversion N as [|? ? NB NN]; subst.
    destruct (IH s1 R ex W I1 H1) as (s2 & E2 & I2 & H2 & C3 & C4 & A2 & M2 & L2); auto.
    { intros p Q. destruct (P p (or_intror Q)) as (Q1 & Q2 & Q3 & Q4). split; auto. split; auto. split; [unfold live in *; destruct (owner sh (snd p)); auto; rewrite A1; auto|]. rewrite C2; auto. intros Z. apply NB. rewrite <- Z. apply in_map. auto. }
    { intros x y X Y. apply D; right; auto. }
    unfold copy in E2. exists s2. split; [exact E2|]. split; auto. split; auto. split; [|split; [|split; [|split]]].
    + intros p [<-|Q]; cbn [fst snd]; [rewrite C4 by auto; auto|]. rewrite C3 by auto. apply C2. apply D; [right; apply in_map; auto|left; auto].
    + intros y Y. rewrite C4 by (intros Q; apply Y; right; auto). apply C2. intros ->. apply Y. left. auto.
    + intros m. rewrite A2. auto.
    + intros m. rewrite M2. auto.
    + intros m. rewrite L2. auto.
Qed.
Lemma heldp_held : forall sh s ex R, heldp sh s ex nop R -> held sh s ex R.
Proof. intros sh s ex R H m M. destruct (H m M) as [A [B|[[k B]|B]]]; split; auto. unfold nop in B. lia. Qed.
Lemma combine_in : forall (a b : list loc) p, In p (combine a b) -> In (fst p) a /\ In (snd p) b.
Proof. intros a b [x y] H. split; [eapply in_combine_l|eapply in_combine_r]; eauto. Qed.
Lemma combine_fst : forall (a b : list loc) x, In x (map fst (combine a b)) -> In x a.
Proof. intros a b x H. apply in_map_iff in H. destruct H as (p & <- & H). apply combine_in in H. apply H. Qed.
Lemma combine_snd : forall (a b : list loc) x, In x (map snd (combine a b)) -> In x b.
Proof. intros a b x H. apply in_map_iff in H. destruct H as (p & <- & H). apply combine_in in H. apply H. Qed.
Lemma combine_nodup : forall (a b : list loc), NoDup b -> NoDup (map snd (combine a b)).
Proof.
  induction a; intros [|y b] N; cbn [combine map]; try constructor; inversion N; subst; auto. intros H. apply combine_snd in H. auto.
Qed.
Lemma clone_ok : forall sh s l n n' R, wf sh -> rest sh s -> heldp sh s [l] nop R -> In n' (nodes sh) -> made s n' = false -> alive s n = true ->
  exists s1, clone sh n n' s = Ok s1 /\ rest sh s1 /\ heldp sh s1 [l] nop R /\ (forall p, In p (combine (fields sh n) (fields sh n')) -> cont s1 (snd p) = cont s (fst p)) /\ (forall y, ~ In y (fields sh n') -> cont s1 y = cont s y) /\
  (forall m, alive s1 m = upd (alive s) n' true m) /\ (forall m, made s1 m = upd (made s) n' true m) /\ (forall m, m <> n' -> loose s1 m = loose s m).
Proof.
  intros sh s l n n' R W I H N M A. assert (D : n <> n') by (intros ->; apply (I_made _ _ _ _ _ I) in A; congruence). assert (A' : alive s n' = false) by (destruct (alive s n') eqn:Q; auto; apply (I_made _ _ _ _ _ I) in Q; congruence).
  assert (NR : ~ R n') by (intros Q; destruct (H _ Q); congruence).
  unfold clone. destruct (copy_ok sh (combine (fields sh n) (fields sh n')) (make s n') R [l] W) as (s1 & E & I1 & H1 & C1 & C2 & A1 & M1 & L1).
  - apply make_ok; auto.
  - apply (heldp_lower _ s); auto; [intros m Q; cbn [make alive]; apply upd_other; congruence|].
    intros m Q. cbn [make loose]. apply upd_other. congruence.
  - intros p P. apply combine_in in P. destruct P as [P1 P2]. apply W in P1, P2. destruct P1 as [P1 _], P2 as [P2 P3]. split; auto. split; auto. split; [unfold live; rewrite P3; cbn [make alive]; apply upd_same|]. cbn [make cont]. eapply I; eauto.
  - apply combine_nodup. apply W.
  - intros a b X Y E. subst b. apply combine_fst in X. apply combine_snd in Y. apply W in X, Y. destruct X as [_ X], Y as [_ Y]. congruence.
  - exists s1. split; auto. split; auto. split; auto. split; auto. split; [intros y Y; apply C2; intros Q; apply Y; eapply combine_snd; eauto|]. split; auto. split; auto.
    intros m Q. rewrite L1. cbn [make loose]. apply upd_other. auto.
Qed.
Lemma mutate_ok : forall sh s l n n', wf sh -> rest sh s -> safe sh s [l] l -> In n' (nodes sh) -> made s n' = false -> cont s l = Some n ->
  (cnt s true n <= 1 /\ exists s', get_and_mutate sh l n' s = Ok s' /\ result sh s s' l (Some n)) \/
  (2 <= cnt s true n /\ 0 < cnt s false n /\ get_and_mutate sh l n' s = Abort) \/
  (2 <= cnt s true n /\ cnt s false n = 0 /\ exists s', get_and_mutate sh l n' s = Ok s' /\ rest sh s' /\ cont s' l = Some n' /\ (forall p, In p (combine (fields sh n) (fields sh n')) -> cont s' (snd p) = cont s (fst p)) /\
     (forall y, y <> l -> ~ In y (fields sh n') -> live sh s' y = true -> cont s' y = cont s y) /\ (forall m, made s' m = upd (made s) n' true m) /\ (forall m, alive s' m = true -> m = n' \/ alive s m = true)).
Proof.
  intros sh s l n n' W I S N M C. destruct (safe_R _ _ _ _ S) as (R & H & X & L). assert (A : alive s n = true) by exact (live_in sh s [] nop [] l n I L (in_nil (a:=l)) C).
  unfold get_and_mutate, at_. rewrite (exok_live _ _ _ _ _ _ H X), C. destruct (cnt s true n <=? 1) eqn:E.
  - apply Nat.leb_le in E. left. split; auto. apply assign_ok; auto. intros m Q. congruence.
  - apply Nat.leb_gt in E. right. destruct (Nat.eqb (cnt s false n) 0) eqn:F; cbn [negb].
    + apply Nat.eqb_eq in F. right. split; auto. split; auto. destruct (clone_ok sh s l n n' R W I H N M A) as (s1 & E1 & I1 & H1 & C1 & C2 & A1 & M1 & L1). rewrite E1. cbn [bind].
      assert (NL : ~ In l (fields sh n')).
      { intros Q. apply W in Q. destruct Q as [_ Q]. destruct (X l (or_introl eq_refl)) as [Y|(o & Y & Z)]; [congruence|]. assert (o = n') by congruence. subst o. destruct (H _ Z) as [Z1 _]. apply (I_made _ _ _ _ _ I) in Z1. congruence. }
      assert (S1 : safe sh s1 [l] l).
      { split; auto. destruct (X l (or_introl eq_refl)) as [Y|(o & Y & Z)]; auto. right. exists R, o. split; auto. split; auto. apply heldp_held. auto. }
      destruct (assign_ok sh s1 l (Some n') W I1 S1) as (s2 & E2 & Q).
      { intros m T. injection T as <-. rewrite A1. apply upd_same. }
      exists s2. split; auto. destruct Q as [Q1 Q2 Q3 Q4 Q5 Q6]. split; auto. split; auto. split; [|split; [|split]].
      * intros p P. assert (PF := combine_in _ _ _ P). destruct PF as [PF1 PF2]. rewrite Q4; auto.
        -- intros T. apply NL. congruence.
        -- unfold live. apply W in PF2. destruct PF2 as [_ T]. rewrite T. destruct (alive s2 n') eqn:V; auto. exfalso. pose proof (live_in sh s2 [] nop [] l n' Q1 L (in_nil (a:=l)) Q2). congruence.
      * intros y Y1 Y2 V. rewrite Q4 by auto. apply C2. auto.
      * intros m. rewrite Q6. apply M1.
      * intros m V. apply Q5 in V. rewrite A1 in V. destruct (Nat.eq_dec m n') as [->|D]; auto. rewrite upd_other in V by auto. auto.
    + apply Nat.eqb_neq in F. left. split; auto. split; auto. lia.
Qed.
Lemma rest_start : forall sh, rest sh start.
Proof.
  intros sh. constructor; cbn; try discriminate; auto. intros k n. unfold refs, nop. rewrite Nat.add_0_r. symmetry. induction (locs sh); auto. cbn [filter]. unfold hit at 1. cbn [start cont is_some]. rewrite !andb_false_r. auto.
Qed.
Lemma step_ok : forall sh s o, wf sh -> rest sh s -> can sh s o -> (exists s', step sh o s = Ok s' /\ rest sh s') \/ (step sh o s = Abort /\ exists l n' n, o = Mutate l n' /\ refers s l n /\ 2 <= cnt s true n /\ 0 < cnt s false n).
Proof.
  intros sh s o W I C. destruct o as [n|l x|l|l|l p|l|l p|l n']; cbn [can step] in *.
  - left. destruct C. eexists. split; [reflexivity|]. apply make_ok; auto.
  - left. destruct C as [A B]. destruct (assign_ok sh s l x W I B A) as (s' & E & Q). exists s'. split; auto. apply Q.
  - left. destruct (null_ok sh s l W I C) as (s' & E & Q). exists s'. split; auto. apply Q.
  - left. destruct (destroy_ok sh s l W I C) as (s' & E & Q). exists s'. split; auto. apply Q.
  - left. destruct C as (A & B & D). destruct (move_ok sh s l p W I A B D) as (s' & E & Q & _). eauto.
  - left. destruct C as (A & B). destruct (release_ok sh s l W I A B) as (s' & E & Q & _). eauto.
  - left. destruct C as (A & B & D & E & F & G). destruct (swap_ok sh s l p W I A B D E F G) as (s' & T & Q & _). eauto.
  - destruct C as (A & B & D & n & E & F). destruct (mutate_ok sh s l n n' W I A B D E) as [(_ & s' & T & Q)|[(T1 & T2 & T3)|(_ & _ & s' & T & Q & _)]]; [left; exists s'; split; auto; apply Q| |left; eauto]. right. split; auto. exists l, n', n. auto.
Qed.
Lemma reach_rest : forall sh s, wf sh -> reach sh s -> rest sh s.
Proof.
  intros sh s W H. induction H as [|s o s' H IH C E]; [apply rest_start|]. destruct (step_ok sh s o W IH C) as [(s2 & E2 & Q)|[E2 _]]; congruence.
Qed.
