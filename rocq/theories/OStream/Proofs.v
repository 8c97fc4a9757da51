From Coq Require Import Ascii String List Bool Arith Lia.
From Verif Require Import OStream.Model OStream.Spec.
Import ListNotations.

Lemma open_ok c : m_open c = opening c. Proof. destruct c as [[] [] [] [] [] [] [] []]; vm_compute; reflexivity. Qed.
Lemma close_ok c : m_close c = closing c. Proof. destruct c as [[] [] [] [] [] [] [] []]; vm_compute; reflexivity. Qed.
Lemma both_ok c : m_both c = around c. Proof. destruct c as [[] [] [] [] [] [] [] []]; vm_compute; reflexivity. Qed.

Definition prints (x : item) : bool := match x with Str [] => false | _ => true end.
Definition saw_after (x : item) (b : bool) : bool :=
  match x with
  | Num _ => false | Null => b
  | Chr c => if Ascii.eqb c nlc then true else b
  | Str t => match t with [] => b | c :: _ => Ascii.eqb (last t c) nlc end
  end.
Lemma fmt_eq d o a p w t sp tp u x : fmt x (OS d o a p w t sp tp u) = OS d d a true w t sp tp (u ++ x). Proof. reflexivity. Qed.
Lemma lead_eq ok d o a p w t sp tp u :
  lead ok (OS d o a p w t sp tp u) = OS d (if o && ok then d else o) a (p || (o && ok)) false t sp tp (u ++ (if o && ok then if t then tp else sp else [])).
Proof. destruct o, ok, p, t; unfold lead; cbn [son andb orb set_nl sdef anl prt tup seps tups out]; rewrite ?fmt_eq, ?app_nil_r; reflexivity. Qed.
Lemma print_str c r s : print (Str (c :: r)) s =
  (let s := lead (negb (m_close c) && negb (m_both c)) s in
   let s := fmt (c :: r) (reset s) in
   let l := last (c :: r) c in
   let s := set_on s (sdef s && (negb (m_open l) && negb (m_both l))) in
   set_nl s (Ascii.eqb l nlc)).
Proof.
  destruct s as [d o a p w t sp tp u]. unfold print. rewrite lead_eq. unfold reset, set_on at 1. cbn [sdef son anl prt saw tup seps tups out]. rewrite fmt_eq.
  cbn [son set_nl sdef anl prt saw tup seps tups out]. unfold reset, set_on. cbn [sdef son anl prt saw tup seps tups out]. rewrite fmt_eq.
  remember (last (c :: r) c) as l. unfold sep, nosep, set_on, set_nl. cbn [sdef son anl prt saw tup seps tups out negb].
  destruct (d && (negb (m_open l) && negb (m_both l))), (Ascii.eqb l nlc); reflexivity.
Qed.
Lemma print_eq x s :
  print x s = OS (sdef s) (sdef s && after x) (anl s) (prt s || prints x) (saw_after x (saw s)) (tup s) (seps s) (tups s)
                 (out s ++ (if son s && before x then cur_sep s else []) ++ text_of x).
Proof.
  destruct s as [d o a p w t sp tp u]. unfold cur_sep.
  destruct x as [x|c|[|c r]|]; cbn [sdef son anl prt saw tup seps tups out before after text_of prints saw_after].
  - unfold print. rewrite lead_eq, fmt_eq, orb_true_r, !andb_true_r, <- app_assoc. reflexivity.
  - unfold print. rewrite fmt_eq, andb_false_r, orb_true_r, andb_false_r. unfold nosep, set_on, set_nl. destruct (Ascii.eqb c nlc); reflexivity.
  - rewrite !andb_false_r, orb_false_r, !app_nil_r. reflexivity.
  - rewrite print_str. cbv zeta. rewrite lead_eq, close_ok, !both_ok, open_ok, <- !negb_orb, orb_true_r.
    unfold reset, set_on at 2. cbn [sdef son anl prt saw tup seps tups out]. rewrite fmt_eq. unfold set_on, set_nl. cbn [sdef son anl prt saw tup seps tups out].
    rewrite <- app_assoc. reflexivity.
  - unfold print. rewrite fmt_eq, andb_false_r, orb_true_r, andb_true_r. reflexivity.
Qed.

(** printing values with their separators *)
Definition step1 (s : os) (p : bool * item) : os := set_tup (print (snd p) (set_tup s (fst p))) false.
Definition all (l : list (bool * item)) (s : os) : os := fold_left step1 l s.
Lemma set_tup_id s : tup s = false -> set_tup s false = s. Proof. destruct s; cbn; intros ->; reflexivity. Qed.
Lemma set_tup2 s a b : set_tup (set_tup s a) b = set_tup s b. Proof. reflexivity. Qed.
Lemma tup_print x s : tup (print x s) = tup s. Proof. rewrite print_eq. reflexivity. Qed.
Lemma rest_all l : forall s, l <> [] -> set_tup (print_rest l (set_tup s true)) false = all (map (pair true) l) s.
Proof.
  induction l as [|x [|y r] IH]; intros s H; [congruence| |].
  - reflexivity.
  - change (print_rest (x :: y :: r) (set_tup s true)) with (set_tup (print_rest (y :: r) (set_tup (print x (set_tup s true)) true)) false).
    rewrite set_tup2, IH by discriminate. change (map (pair true) (x :: y :: r)) with ((true, x) :: map (pair true) (y :: r)).
    unfold all. cbn [fold_left]. unfold step1 at 3. cbn [fst snd].
    cbn [map fold_left]. unfold step1 at 2 4. cbn [fst snd]. reflexivity.
Qed.
Lemma part_all e s : value e = true -> tup s = false -> part e s = all (flat e) s.
Proof.
  intros V T0. destruct e as [x|a b r|]; [| |discriminate].
  - cbn [part flat all fold_left]. unfold step1. cbn [fst snd]. rewrite (set_tup_id s T0), set_tup_id; [reflexivity|]. rewrite tup_print. exact T0.
  - cbn [part flat]. unfold print_tuple. rewrite rest_all by discriminate. unfold all. cbn [fold_left]. unfold step1 at 3. cbn [fst snd].
    rewrite (set_tup_id s T0). rewrite (set_tup_id (print a s)); [reflexivity|]. rewrite tup_print. exact T0.
Qed.
Definition lastb (d o : bool) (l : list (bool * item)) : bool := fold_left (fun _ p => d && after (snd p)) l o.
Lemma all_eq l : forall s, tup s = false ->
  all l s = OS (sdef s) (lastb (sdef s) (son s) l) (anl s) (prt s || existsb (fun p => prints (snd p)) l) (fold_left (fun b p => saw_after (snd p) b) l (saw s)) false (seps s) (tups s)
    (out s ++ line (sdef s) (seps s) (tups s) (son s) l).
Proof.
  induction l as [|[t x] r IH]; intros s T0.
  - destruct s; cbn in T0 |- *. subst. rewrite orb_false_r, app_nil_r. reflexivity.
  - unfold all in *. cbn [fold_left]. rewrite IH; unfold step1; rewrite print_eq; [|reflexivity].
    unfold set_tup, cur_sep. cbn [sdef son anl prt saw tup seps tups out fst snd existsb line].
    rewrite <- !app_assoc, orb_assoc. reflexivity.
Qed.
Lemma part_eq e s : value e = true -> tup s = false ->
  part e s = OS (sdef s) (lastb (sdef s) (son s) (flat e)) (anl s) (prt s || existsb (fun p => prints (snd p)) (flat e)) (fold_left (fun b p => saw_after (snd p) b) (flat e) (saw s)) false (seps s) (tups s)
    (out s ++ line (sdef s) (seps s) (tups s) (son s) (flat e)).
Proof. intros V T0. rewrite part_all by assumption. apply all_eq, T0. Qed.
Lemma nl_eq s : nl s = OS (sdef s) false (anl s) false true (tup s) (seps s) (tups s) (out s ++ [nlc]).
Proof. unfold nl. rewrite print_eq. cbn [before text_of]. rewrite (andb_false_r (son s)). reflexivity. Qed.

Lemma run_app l1 l2 s : run (l1 ++ l2) s = run l2 (run l1 s). Proof. apply fold_left_app. Qed.
Lemma parts_all l : forall s, forallb value l = true -> tup s = false -> run (map Part l) s = all (concat (map flat l)) s.
Proof.
  induction l as [|e l IH]; intros s V T0; [reflexivity|]. cbn [forallb] in V. apply andb_true_iff in V as [V1 V2].
  change (run (map Part (e :: l)) s) with (run (map Part l) (part e s)). cbn [map concat]. rewrite (part_all e s V1 T0).
  unfold all. rewrite fold_left_app. apply IH; [exact V2|]. fold (all (flat e) s). rewrite all_eq by exact T0. reflexivity.
Qed.
(** between statements *)
Definition fresh (s : os) : Prop := son s = false /\ prt s = false /\ tup s = false /\ anl s = true.
Lemma statement_eq l e s : forallb value (l ++ [e]) = true -> fresh s ->
  run (statement l e) s = OS (sdef s) false true false true false (seps s) (tups s) (out s ++ line (sdef s) (seps s) (tups s) false (concat (map flat (l ++ [e]))) ++ [nlc]).
Proof.
  intros V (F1 & F2 & F3 & F4). unfold statement. rewrite run_app.
  assert (V' := V). rewrite forallb_app in V'. apply andb_true_iff in V' as [V1 V2]. cbn [forallb] in V2. apply andb_true_iff in V2 as [V2 _].
  change (run [Last e] (run (map Part l) s)) with (last_part e (run (map Part l) s)).
  assert (R : last_part e (run (map Part l) s) = ends (run (map Part (l ++ [e])) s)).
  { rewrite map_app, run_app. destruct e; [reflexivity|reflexivity|discriminate]. }
  rewrite R, (parts_all _ _ V F3), (all_eq _ _ F3). unfold ends. cbn [anl]. rewrite F4, nl_eq. cbn [sdef son anl prt saw tup seps tups out].
  rewrite F1, <- app_assoc. reflexivity.
Qed.

(** the invariant: a line that has just ended has no separator pending *)
Definition Inv (s : os) : Prop := tup s = false /\ (ends_line (out s) -> saw s = true /\ son s = false).
Lemma ends_app t u : u <> [] -> ends_line (t ++ u) -> ends_line u.
Proof.
  intros H [w E]. destruct (exists_last H) as (u' & z & ->). rewrite app_assoc in E. apply app_inj_tail in E as [_ ->]. exists u'. reflexivity.
Qed.
Lemma last_end c r : ends_line (c :: r) -> last (c :: r) c = nlc.
Proof. intros [w ->]. apply last_last. Qed.
Lemma inv_print t x s : good_item x = true -> (ends_line (out s) -> saw s = true /\ son s = false) ->
  let s' := print x (set_tup s t) in ends_line (out s') -> saw s' = true /\ son s' = false.
Proof.
  intros G H s'. subst s'. rewrite print_eq. cbn [sdef son anl prt saw tup seps tups out set_tup].
  destruct x as [x|c|[|c r]|]; cbn [text_of after before saw_after good_item] in *.
  - destruct x as [|c r]; [discriminate|]. rewrite app_assoc. intros E. apply ends_app in E; [|discriminate]. apply last_end in E. rewrite E in G. discriminate.
  - rewrite app_assoc. intros E. apply ends_app in E; [|discriminate]. apply (last_end c []) in E. cbn [last] in E. subst. rewrite andb_false_r. auto.
  - rewrite !andb_false_r, !app_nil_r. intros E. destruct (H E). auto.
  - rewrite app_assoc. intros E. apply ends_app in E; [|discriminate]. apply last_end in E. rewrite E. vm_compute (around nlc). rewrite orb_true_r, andb_false_r. auto.
  - rewrite app_assoc. intros E. apply ends_app in E; [|discriminate]. destruct E as [w E]. destruct w as [|? [|? [|? ?]]]; discriminate.
Qed.
Lemma inv_all l : forall s, forallb (fun p => good_item (snd p)) l = true -> Inv s -> Inv (all l s).
Proof.
  induction l as [|[t x] r IH]; intros s G H; [exact H|]. cbn [forallb snd] in G. apply andb_true_iff in G as [G1 G2].
  change (all ((t, x) :: r) s) with (all r (step1 s (t, x))). apply IH; [exact G2|]. destruct H as [H1 H2]. split; [reflexivity|]. apply (inv_print t x s G1 H2).
Qed.
Lemma inv_str t s : Inv s -> Inv (print (Str t) s).
Proof. intros [H1 H2]. split; [rewrite tup_print; exact H1|]. generalize (inv_print false (Str t) s eq_refl H2). rewrite set_tup_id by exact H1. auto. Qed.
Lemma inv_nl s : Inv s -> Inv (nl s).
Proof. intros [H1 H2]. rewrite nl_eq. split; cbn; auto. Qed.
Lemma inv_manip m s : Inv s -> Inv (apply m s).
Proof.
  intros H. destruct m; cbn [apply]; try (apply inv_str, H); try (apply inv_nl, H); try exact H; destruct H as [H1 H2];
    unfold sep, nosep, sepOn, sepOff, reset, set_def, set_on; (split; [try destruct (son s); exact H1|]); cbn [sdef son anl prt saw tup seps tups out].
  - intros E. destruct (H2 E) as [-> _]. auto.
  - intros E. destruct (H2 E) as [-> _]. auto.
  - destruct (son s) eqn:O; cbn [sdef son anl prt saw tup seps tups out]; intros E; destruct (H2 E); split; congruence.
  - intros E. destruct (H2 E) as [-> _]. auto.
Qed.
Lemma inv_part e s : forallb (fun p => good_item (snd p)) (flat e) = true -> Inv s -> Inv (part e s).
Proof.
  intros G H. destruct e as [x|a b r|m].
  - rewrite part_all; [apply inv_all; assumption|reflexivity|apply H].
  - rewrite part_all; [apply inv_all; assumption|reflexivity|apply H].
  - apply inv_manip, H.
Qed.
Lemma inv_ends s : Inv s -> Inv (ends s).
Proof. intros H. unfold ends. destruct (anl s); [apply inv_nl, H|exact H]. Qed.
Lemma inv_do a s : good a = true -> Inv s -> Inv (do a s).
Proof.
  intros G H. destruct a as [e|e|t|t]; cbn [do good] in *.
  - apply inv_part; assumption.
  - assert (P := inv_part e s G H). destruct e; cbn [last_part]; try (apply inv_ends, P). cbn [part] in P.
    destruct (prt (apply m s)); [apply inv_ends in P; exact P|exact P].
  - exact H.
  - exact H.
Qed.
Lemma inv_run l : forall s, forallb good l = true -> Inv s -> Inv (run l s).
Proof.
  induction l as [|a l IH]; intros s G H; [exact H|]. cbn [forallb] in G. apply andb_true_iff in G as [G1 G2].
  change (run (a :: l) s) with (run l (do a s)). apply IH; [exact G2|]. apply inv_do; assumption.
Qed.
Lemma inv_init : Inv init.
Proof. split; [reflexivity|]. intros [w E]. destruct w; discriminate. Qed.

Lemma prt_last e s : prt (last_part e s) = false.
Proof. destruct e; cbn [last_part]; try reflexivity; unfold ends; destruct (anl _); rewrite ?nl_eq; reflexivity. Qed.
(** what was printed *)
Lemma sep_manip_eq m s : sep_manip m = true -> prt (apply m s) = prt s /\ anl (apply m s) = anl s /\ tup (apply m s) = tup s /\ out (apply m s) = out s.
Proof. destruct m; try discriminate; intros _; cbn [apply]; unfold sepOn; repeat split; try reflexivity; destruct (son (set_def s true)); reflexivity. Qed.
Lemma prints_good x : good_item x = true -> prints x = negb (match text_of x with [] => true | _ => false end).
Proof. destruct x as [[|]| |[|]|]; cbn; congruence. Qed.
Lemma plain_run l : forall s, forallb plain l = true -> forallb good (map Part l) = true -> tup s = false ->
  let s' := run (map Part l) s in prt s' = prt s || existsb shows l /\ anl s' = anl s /\ tup s' = false.
Proof.
  induction l as [|e l IH]; intros s P G T0; [cbn; rewrite orb_false_r; auto|].
  cbn [forallb map] in P, G. apply andb_true_iff in P as [P1 P2]. apply andb_true_iff in G as [G1 G2]. cbn [good] in G1.
  change (run (map Part (e :: l)) s) with (run (map Part l) (part e s)). cbn [existsb].
  assert (Q : prt (part e s) = prt s || shows e /\ anl (part e s) = anl s /\ tup (part e s) = false).
  { destruct (value e) eqn:V.
    - rewrite part_eq by assumption. cbn [prt anl tup]. split; [|auto]. f_equal. unfold shows.
      clear -G1. induction (flat e) as [|[t x] r IH]; [reflexivity|]. cbn [forallb existsb snd] in *. apply andb_true_iff in G1 as [A B]. rewrite (prints_good x A), IH by exact B. reflexivity.
    - destruct e as [| |m]; try discriminate. cbn [part plain] in *. destruct (sep_manip_eq m s P1) as (A & B & C & D). rewrite A, B, C, orb_false_r. auto. }
  destruct Q as (Q1 & Q2 & Q3). destruct (IH (part e s) P2 G2 Q3) as (R1 & R2 & R3). cbv zeta. rewrite R1, R2, Q1, Q2, orb_assoc. auto.
Qed.
