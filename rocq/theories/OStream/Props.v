From Coq Require Import Ascii String List Bool Arith.
From Verif Require Import OStream.Model OStream.Spec OStream.Proofs.
Import ListNotations.
Local Notation "'t' s" := (list_ascii_of_string s%string) (at level 0, s at level 0).
Local Notation show l := (string_of_list_ascii (out (run l init))).

(** C105: a statement that prints values and tuples shows exactly the texts of the values, the separators between neighbours that both allow one, and one newline; the next statement starts afresh *)
Theorem C105_statement l e s : forallb value (l ++ [e]) = true -> fresh s ->
  let s' := run (statement l e) s in
  out s' = out s ++ line (sdef s) (seps s) (tups s) false (concat (map flat (l ++ [e]))) ++ [nlc] /\
  fresh s' /\ sdef s' = sdef s /\ seps s' = seps s /\ tups s' = tups s.
Proof. intros V F s'. subst s'. rewrite (statement_eq l e s V F). cbn. unfold fresh. cbn. auto 8. Qed.
Print Assumptions C105_statement.
Example C105_statement_ex :
  show (statement [I (Str (t "x ")); I (Num (t "1")); I (Str (t "(")); I (Num (t "2")); I (Str (t ")")); T (Num (t "3")) (Num (t "4")) [Num (t "5")]; I (Chr "a")] (I (Num (t "6"))))
  = ("x 1 (2) 3, 4, 5a6" ++ String nlc "")%string.
Proof. vm_compute. reflexivity. Qed.

(** with the separators turned off nothing stands between the values *)
Theorem C105_off l e s : forallb value (l ++ [e]) = true -> fresh s -> sdef s = false ->
  out (run (statement l e) s) = out s ++ concat (map (fun p => text_of (snd p)) (concat (map flat (l ++ [e])))) ++ [nlc].
Proof.
  intros V F D. destruct (C105_statement l e s V F) as (H & _). rewrite H, D.
  assert (E : forall l sp tp, line false sp tp false l = concat (map (fun p => text_of (snd p)) l)).
  { clear. induction l as [|[b x] r IH]; intros sp tp; [reflexivity|]. cbn [line map concat snd andb app]. rewrite IH. reflexivity. }
  rewrite E. reflexivity.
Qed.
Print Assumptions C105_off.
Example C105_off_ex : show ([Last (M MsepOff)] ++ statement [I (Num (t "1")); T (Num (t "2")) (Num (t "3")) []] (I (Str (t "b")))) = ("123b" ++ String nlc "")%string.
Proof. vm_compute. reflexivity. Qed.

(** no separator stands at the beginning of a line, whatever was done before, after the first line *)
Theorem C105_line_start l e x r : forallb good l = true -> value e = true -> flat e = x :: r -> ends_line (out (run l init)) ->
  let s := run l init in
  out (part e s) = out s ++ text_of (snd x) ++ line (sdef s) (seps s) (tups s) (sdef s && after (snd x)) r.
Proof.
  intros G V E L s. destruct (inv_run l init G inv_init) as [I1 I2]. destruct (I2 L) as [_ O]. subst s.
  rewrite (part_eq e _ V I1), E, O. destruct x. reflexivity.
Qed.
Print Assumptions C105_line_start.
Example C105_line_start_ex : show [Part (I (Str (t "a" ++ [nlc]))); Part (M Msep); Part (M MsepOn); Part (I (Num (t "1"))); Last (I (Num (t "2")))] = ("a" ++ String nlc ("1 2" ++ String nlc ""))%string.
Proof. vm_compute. reflexivity. Qed.

(** ... but the very first line can start with one *)
Theorem C105_first_refuted : ~ (forall l x, forallb good l = true -> out (run l init) = [] -> out (part (I x) (run l init)) = text_of x).
Proof. intros H. specialize (H [Part (M Msep)] (Num (t "1")) eq_refl eq_refl). vm_compute in H. discriminate. Qed.
Print Assumptions C105_first_refuted.
Example C105_first_ex : show [Part (M Msep); Last (I (Num (t "1")))] = (" 1" ++ String nlc "")%string.
Proof. vm_compute. reflexivity. Qed.

(** sep asks for a separator before the next value: after a number or a string that does not end a line, also with the separators turned off *)
Theorem C105_sep_partial x y s : (match x with Num _ => True | Str (c :: r) => last (c :: r) c <> nlc | _ => False end) -> before y = true ->
  let s1 := print x s in out (print y (sep s1)) = out s1 ++ cur_sep s ++ text_of y.
Proof.
  intros H B s1. subst s1. rewrite !print_eq. unfold sep, set_on, cur_sep. cbn [sdef son anl prt saw tup seps tups out]. rewrite B.
  assert (E : saw_after x (saw s) = false).
  { destruct x as [u| |[|c r]|]; try contradiction; [reflexivity|]. cbn [saw_after]. destruct (Ascii.eqb_spec (last (c :: r) c) nlc); [contradiction|reflexivity]. }
  rewrite E. reflexivity.
Qed.
Print Assumptions C105_sep_partial.
Example C105_sep_ex : show [Part (M MsepOff); Part (I (Num (t "1"))); Part (M Msep); Part (I (Num (t "2"))); Last (I (Num (t "3")))] = ("1 23" ++ String nlc "")%string.
Proof. vm_compute. reflexivity. Qed.

(** ... not after a character at the beginning of a line *)
Theorem C105_sep_refuted : ~ (forall l c y, forallb good l = true -> c <> nlc -> before y = true ->
  let s1 := print (Chr c) (run l init) in out (print y (sep s1)) = out s1 ++ cur_sep s1 ++ text_of y).
Proof. intros H. specialize (H [Part (M Mnl)] "a"%char (Num (t "1")) eq_refl ltac:(discriminate) eq_refl). vm_compute in H. discriminate. Qed.
Print Assumptions C105_sep_refuted.
Example C105_sep_char_ex : show [Part (I (Chr "a")); Part (M Msep); Last (I (Num (t "1"))); Part (I (Chr "a")); Part (M Msep); Last (I (Num (t "1")))] = ("a 1" ++ String nlc ("a1" ++ String nlc ""))%string.
Proof. vm_compute. reflexivity. Qed.

(** nosep: none before the next value, and only there *)
Theorem C105_nosep x y s : before y = true -> tup s = false ->
  out (print y (print x (nosep s))) = out s ++ text_of x ++ (if sdef s && after x then seps s else []) ++ text_of y.
Proof. intros B T0. rewrite !print_eq. unfold nosep, set_on, cur_sep. cbn [sdef son anl prt saw tup seps tups out]. rewrite B, T0, andb_true_r, <- !app_assoc. reflexivity. Qed.
Print Assumptions C105_nosep.
Example C105_nosep_ex : show [Part (I (Num (t "1"))); Part (M Mnosep); Part (I (Num (t "2"))); Last (I (Num (t "3")))] = ("12 3" ++ String nlc "")%string.
Proof. vm_compute. reflexivity. Qed.

(** a null string stands next to the value before it *)
Theorem C105_null_refuted : ~ (forall u s, sdef s = true -> let s1 := print (Num u) s in out (print Null s1) = out s1 ++ cur_sep s1 ++ text_of Null).
Proof. intros H. specialize (H (t "1") init eq_refl). vm_compute in H. discriminate. Qed.
Print Assumptions C105_null_refuted.
Example C105_null_ex : show (statement [I (Num (t "1")); I Null] (I (Num (t "2")))) = ("10p 2" ++ String nlc "")%string.
Proof. vm_compute. reflexivity. Qed.

(** the newline at the end of a statement that ends in a value, nl or nonl *)
Theorem C105_newline e s :
  (value e = true -> tup s = false -> out (last_part e s) = out (part e s) ++ (if anl s then [nlc] else [])) /\
  out (last_part (M Mnl) s) = out s ++ [nlc] /\ out (last_part (M Mnonl) s) = out s /\ prt (last_part e s) = false.
Proof.
  split; [|split; [|split]].
  - intros V T0. assert (A : anl (part e s) = anl s) by (rewrite part_eq by assumption; reflexivity). destruct e; try discriminate; cbn [last_part]; unfold ends; rewrite A; (destruct (anl s); [rewrite nl_eq; reflexivity|rewrite app_nil_r; reflexivity]).
  - cbn [last_part apply]. rewrite nl_eq. reflexivity.
  - reflexivity.
  - apply prt_last.
Qed.
Print Assumptions C105_newline.
Example C105_newline_ex : show [Part (I (Num (t "1"))); Last (M Mnonl); Part (I (Num (t "2"))); Last (M Mnl); Last (M MnlOff); Last (I (Num (t "3"))); Last (I (Num (t "4")))]
  = ("1 2" ++ String nlc "3 4")%string.
Proof. vm_compute. reflexivity. Qed.

(** a statement that ends in a separator manipulator ends its line exactly if it has printed something *)
Theorem C105_silent l m s : forallb plain l = true -> forallb good (map Part l) = true -> sep_manip m = true -> prt s = false -> tup s = false ->
  out (run (statement l (M m)) s) = out (run (map Part l) s) ++ (if existsb shows l && anl s then [nlc] else []).
Proof.
  intros P G Sm P0 T0. unfold statement. rewrite run_app. destruct (plain_run l s P G T0) as (Q1 & Q2 & Q3). rewrite P0 in Q1. cbn [orb] in Q1.
  set (s' := run (map Part l) s) in *. change (run [Last (M m)] s') with (last_part (M m) s'). cbn [last_part].
  destruct (sep_manip_eq m s' Sm) as (A & B & C & D). rewrite A, Q1. destruct (existsb shows l); cbn [andb].
  - unfold ends. rewrite B, Q2. destruct (anl s); [rewrite nl_eq; cbn [set_prt out]; rewrite D; reflexivity|cbn [set_prt out]; rewrite app_nil_r; exact D].
  - cbn [set_prt out]. rewrite app_nil_r. exact D.
Qed.
Print Assumptions C105_silent.
Example C105_silent_ex : show [Last (M MsepOn); Part (I (Str [])); Last (M Mnosep); Part (I (Num (t "1"))); Last (M Mnosep)] = ("1" ++ String nlc "")%string.
Proof. vm_compute. reflexivity. Qed.
