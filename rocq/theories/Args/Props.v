From Coq Require Import Ascii String List Bool Arith ZArith Lia ZifyBool.
From Verif Require Import Args.Model Args.Spec Args.Num Args.Help.
Import ListNotations.
Local Open Scope Z_scope.
Definition t_ (s : string) : text := list_ascii_of_string s.
(** C113: an int is read from a numeral of C with a sign, in the range of int, or from nothing (see the refutation) *)
Theorem C113_int : forall s z, s <> [] -> (parse_int s = Some z <-> integer s z /\ -2147483648 <= z <= 2147483647).
Proof.
  intros s z Hs. rewrite parse_int_spec. change imax with 2147483647. split.
  - intros [[H|[H _]] R]; [split; [exact H|lia]|contradiction].
  - intros [H R]. split; [auto|lia].
Qed.
Print Assumptions C113_int.
(** the empty argument, as in --count=, should be refused; it is read as zero *)
Theorem C113_empty_refuted : parse_int [] = Some 0 /\ ~ (exists z, integer [] z).
Proof.
  split; [reflexivity|]. intros [z H]. assert (E : forall ws c t, ws ++ c :: t = @nil ascii -> False) by (intros [|] c t; discriminate).
  inversion H as [ws t y Hw Hn Ht|ws t y Hw Hn Ht|ws t y Hw Hn Ht].
  - destruct (numeral_head _ _ Hn) as [c [r [-> _]]]. exact (E _ _ _ Ht).
  - exact (E _ _ _ Ht).
  - exact (E _ _ _ Ht).
Qed.
Print Assumptions C113_empty_refuted.
(** the unsigned types are read from a numeral without a sign, in the range of the type *)
Theorem C113_unsigned : forall max s z, max <= 18446744073709551615 ->
  (parse_unsigned max s = Some z <-> exists ws t, white ws /\ s = ws ++ t /\ numeral t z /\ z <= max).
Proof. exact parse_unsigned_spec. Qed.
Print Assumptions C113_unsigned.
(** the value of a numeral is determined *)
Theorem C113_value : forall s y z, integer s y -> integer s z -> y = z.
Proof. intros s y z H1 H2. assert (E1 : strto s = (y, [])) by (apply strto_integer; auto). assert (E2 : strto s = (z, [])) by (apply strto_integer; auto). congruence. Qed.
Print Assumptions C113_value.
Lemma eqs_spec a s : eqs a s = true <-> a = t_ s.
Proof. unfold eqs, t_. destruct (list_eq_dec ascii_dec a (list_ascii_of_string s)); split; congruence. Qed.
(** the truth values are read from exactly these words *)
Theorem C113_words : forall a b,
  (parse_yesno a = Some b <-> In a (map t_ (if b then ["yes"; "Y"; "y"] else ["no"; "N"; "n"])%string)) /\
  (parse_truefalse a = Some b <-> a = t_ (if b then "true" else "false")%string).
Proof.
  intros a b. unfold parse_yesno, parse_truefalse. cbn [map In]. split.
  - split.
    + destruct (eqs a "yes") eqn:E1; [apply eqs_spec in E1; intros [= <-]; cbn; auto|]. destruct (eqs a "Y") eqn:E2; [apply eqs_spec in E2; intros [= <-]; cbn; auto|].
      destruct (eqs a "y") eqn:E3; [apply eqs_spec in E3; intros [= <-]; cbn; auto|]. destruct (eqs a "no") eqn:E4; [apply eqs_spec in E4; intros [= <-]; cbn; auto|].
      destruct (eqs a "N") eqn:E5; [apply eqs_spec in E5; intros [= <-]; cbn; auto|]. destruct (eqs a "n") eqn:E6; [apply eqs_spec in E6; intros [= <-]; cbn; auto|]. discriminate.
    + destruct b; cbn [map In]; intros H; repeat (destruct H as [<-|H]; [reflexivity|]); contradiction.
  - split.
    + destruct (eqs a "true") eqn:E1; [apply eqs_spec in E1; intros [= <-]; exact E1|]. destruct (eqs a "false") eqn:E2; [apply eqs_spec in E2; intros [= <-]; exact E2|]. discriminate.
    + intros ->. destruct b; reflexivity.
Qed.
Print Assumptions C113_words.
Example ex_int : parse_int (t_ " -0x1F") = Some (-31) /\ parse_int (t_ "017") = Some 15 /\ parse_int (t_ "08") = None /\ parse_int (t_ "2147483648") = None /\
  parse_int (t_ "0x") = None /\ parse_int (t_ "12 ") = None /\ parse_int (t_ " ") = None /\ parse_unsigned umax (t_ "-1") = None /\ parse_unsigned umax (t_ "4294967295") = Some 4294967295 /\
  parse_unsigned umax (t_ "4294967296") = None /\ parse_unsigned ullmax (t_ "18446744073709551616") = None /\ parse_unsigned umax [] = None.
Proof. vm_compute. repeat split. Qed.

(** C114: the help column prints the lines of the help text, each cut into pieces of the width of the column; the loop ends *)
Theorem C114_column : forall max width help, 1 <= max -> help <> [] -> exists f pss, forall f', (f <= f')%nat ->
  pieces f' (hwidth max width) help = Some (concat pss) /\ Forall2 (wrapped (hwidth max width)) (lines help) pss.
Proof.
  intros max width help Hm Hh. assert (Hw : (hwidth max width >= 1)%nat) by (unfold hwidth; cbv zeta; destruct (max - (11 + width) <=? 0) eqn:E; lia).
  destruct (pieces_good _ Hw (length help) help Hh (Nat.le_refl _)) as [ps [E [pss [H ->]]]]. exists (length help), pss. intros f' Hf. split; [|exact H].
  assert (M : forall f hw h p, pieces f hw h = Some p -> forall f', (f <= f')%nat -> pieces f' hw h = Some p).
  { clear. induction f as [|f IH]; intros hw h p H f' Hf; [discriminate|]. destruct f' as [|f']; [lia|]. cbn [pieces] in *. cbv zeta in *.
    match goal with |- match ?x with _ => _ end = _ => destruct x eqn:Ex end; [exact H|].
    match type of H with option_map _ ?x = _ => destruct x eqn:Ey end; [|discriminate]. rewrite (IH _ _ _ Ey f') by lia. exact H. }
  exact (M _ _ _ _ E f' Hf).
Qed.
Print Assumptions C114_column.
(** the pieces are determined by the lines, fit in the column, and put together they are the line *)
Theorem C114_pieces : forall w l ps, wrapped w l ps -> concat ps = l /\ Forall (fun p => (length p <= w)%nat) ps /\ (forall qs, (1 <= w)%nat -> wrapped w l qs -> qs = ps).
Proof.
  induction 1 as [l Hl|l r ps Hl Hr Hw [I1 [I2 I3]]].
  - cbn [concat]. rewrite app_nil_r. split; [reflexivity|]. split; [constructor; [exact Hl|constructor]|]. intros qs Hw1 H. inversion H as [k Hk|k r qs' Hk Hr Hq]; subst; [reflexivity|].
    destruct r; [congruence|]. rewrite app_length in Hl. cbn [length] in Hl. lia.
  - cbn [concat]. rewrite I1. split; [reflexivity|]. split; [constructor; [lia|exact I2]|]. intros qs Hw1 H. inversion H as [k Hk Ek|k r' qs' Hk Hr' Hq Ek]; subst.
    + rewrite app_length in Hk. destruct (concat ps); [congruence|]. cbn [length] in Hk. lia.
    + assert (k = l /\ r' = concat ps) as [-> ->].
      { generalize dependent (concat ps). intros r _ _ _ _ Ek. clear - Hk Ek. revert k Hk Ek. induction l as [|c l IH]; intros [|d k] Hk Ek; try discriminate; cbn [app length] in *; [auto|]. injection Ek as -> Ek. destruct (IH k) as [-> ->]; [lia|exact Ek|auto]. }
      f_equal. apply I3; assumption.
Qed.
Print Assumptions C114_pieces.
(** on a terminal that gives its width as 0 columns the loop never ends *)
Theorem C114_width_refuted : forall width help, 0 <= width -> help <> [] -> hd nlc help <> nlc -> forall f, pieces f (hwidth 0 width) help = None.
Proof. intros width help Hw Hn Hh f. replace (hwidth 0 width) with O; [apply pieces_zero; assumption|]. unfold hwidth. cbv zeta. destruct (0 - (11 + width) <=? 0) eqn:E; [reflexivity|lia]. Qed.
Print Assumptions C114_width_refuted.
Example ex_column : pieces 20 (hwidth 20 4) (t_ "number of" ++ nlc :: t_ "runs" ++ [nlc]) = Some [t_ "numbe"; t_ "r of"; t_ "runs"] /\ hwidth 10 4 = 10%nat.
Proof. vm_compute. auto. Qed.

(** C115: options with different names have different values, and the value of an option chooses it *)
Theorem C115_choice : forall l i o, check l = true -> nth_error l i = Some o -> fst o <> 104 -> fst o <> 63 ->
  exists v, nth_error (vals l (start_max l)) i = Some v /\ (fst o <> 0 -> v = fst o) /\ choose l v = Opt i.
Proof.
  intros l i o Hc Ho H1 H2. destruct (start_bound l) as [Hh Hb]. destruct (vals_nth l (start_max l) i o Ho) as [v [Hv K]]. exists v. split; [exact Hv|].
  assert (v <> 104 /\ v <> 63) as [V1 V2]. { unfold hc in Hh. destruct (fst o =? 0); [lia|subst; auto]. }
  split; [destruct (Z.eqb_spec (fst o) 0); [congruence|auto]|].
  unfold choose, hc. destruct (Z.eqb_spec v 104); [congruence|]. destruct (Z.eqb_spec v 63); [congruence|]. rewrite (index_nodup _ (vals_nodup l Hc _ Hb) _ _ Hv). reflexivity.
Qed.
Print Assumptions C115_choice.
(** names that are used twice are refused *)
Theorem C115_check : forall l, check l = true <-> (forall i j a b, i <> j -> nth_error l i = Some a -> nth_error l j = Some b -> snd a <> snd b /\ (fst a <> 0 -> fst a <> fst b)).
Proof.
  assert (C : forall o l, clash o l = false <-> (forall j b, nth_error l j = Some b -> snd o <> snd b /\ (fst o <> 0 -> fst o <> fst b))).
  { intros o l. induction l as [|p l IH]; cbn [clash]; [split; [intros _ [|j] b; discriminate|reflexivity]|].
    assert (E : eqt (snd o) (snd p) = false <-> snd o <> snd p) by (unfold eqt; destruct (list_eq_dec ascii_dec (snd o) (snd p)); split; congruence).
    rewrite !orb_false_iff, E, IH. split.
    - intros [[A B] D] [|j] b; cbn [nth_error]; [|apply D]. intros [= <-]. split; [exact B|]. lia.
    - intros H. assert (H0 := H O p eq_refl). split; [split; [lia|apply H0]|]. intros j b. apply (H (S j)). }
  induction l as [|o l IH]; cbn [check].
  - split; [|reflexivity]. intros _ [|i] j a b; discriminate.
  - rewrite andb_true_iff, negb_true_iff, C, IH. split.
    + intros [A B] [|i] [|j] a b Hij; cbn [nth_error]; [congruence| | |].
      * intros [= <-]. apply A.
      * intros Ha [= <-]. destruct (A _ _ Ha) as [A1 A2]. split; [congruence|]. intros N E. apply A2; congruence.
      * apply B. congruence.
    + intros H. split; [intros j b; apply (H O (S j)); [discriminate|reflexivity]|]. intros i j a b Hij. apply (H (S i) (S j)). congruence.
Qed.
Print Assumptions C115_check.
(** an option called h or ? passes the check and is never chosen: its argument is taken for a request for help or for an error *)
Theorem C115_help_refuted : forall l i o, nth_error l i = Some o -> fst o = 104 \/ fst o = 63 -> exists v, nth_error (vals l (start_max l)) i = Some v /\ (choose l v = Help \/ choose l v = Usage).
Proof.
  intros l i o Ho H. destruct (vals_nth l (start_max l) i o Ho) as [v [Hv K]]. exists v. split; [exact Hv|]. destruct (Z.eqb_spec (fst o) 0); [lia|]. rewrite K. destruct H as [->| ->]; [left|right]; reflexivity.
Qed.
Print Assumptions C115_help_refuted.
Example ex_choice : let l := [(110, t_ "runs"); (0, t_ "quiet"); (122, t_ "size"); (0, t_ "log")] in
  check l = true /\ vals l (start_max l) = [110; 123; 122; 124] /\ choose l 123 = Opt 1 /\ choose l 110 = Opt 0 /\ choose l 104 = Help /\ choose l 1 = Error /\
  check [(104, t_ "host")] = true /\ check [(97, t_ "a"); (97, t_ "b")] = false.
Proof. vm_compute. repeat split. Qed.
