From Coq Require Import Ascii String List Bool Arith ZArith Lia ZifyBool.
From Verif Require Import Config.Model Config.Spec.
Import ListNotations.
Local Open Scope nat_scope.

(** * Reading *)
Definition spaces (t : text) : Prop := forallb is_space t = true.
Lemma skip_spaces pre l : spaces pre -> skip (pre ++ l) = skip l.
Proof. unfold spaces. induction pre as [|c pre IH]; cbn [forallb app skip]; intros H; [reflexivity|]. apply andb_prop in H as [-> H]. auto. Qed.
Lemma skip_none l : spaces l -> skip l = [].
Proof. intros H. rewrite <- (app_nil_r l), skip_spaces by assumption. reflexivity. Qed.
Definition ends (l : text) : Prop := match l with [] => True | c :: _ => is_space c = true end.
(** the first word of a text *)
Lemma take_first n t l : first_len t <= n -> ends l -> exists w r, t = w ++ r /\ take n (t ++ l) = (w, r ++ l) /\ ends (r ++ l) /\ length w = first_len t.
Proof.
  revert t. induction n as [|n IH]; intros t Hn Hl.
  - exists [], t. destruct t as [|c t].
    + repeat split. exact Hl.
    + cbn [first_len] in *. destruct (is_space c) eqn:E; [|lia]. repeat split. cbn [app ends]. exact E.
  - destruct t as [|c t].
    + exists [], []. cbn [app]. repeat split; [|exact Hl]. destruct l as [|c l]; cbn [take]; [reflexivity|]. cbn in Hl. rewrite Hl. reflexivity.
    + cbn [first_len] in Hn |- *. destruct (is_space c) eqn:E.
      * exists [], (c :: t). cbn [app take]. rewrite E. repeat split. exact E.
      * destruct (IH t ltac:(lia) Hl) as [w [r [Et [Ht [He Hw]]]]]. exists (c :: w), r.
        split; [cbn [app]; rewrite <- Et; reflexivity|]. split; [cbn [app take]; rewrite E, Ht; reflexivity|]. split; [exact He|cbn [length]; lia].
Qed.
Lemma first_len_word t l : word t = true -> ends l -> first_len (t ++ l) = length t.
Proof.
  unfold word. intros H Hl. apply andb_prop in H as [H _]. induction t as [|c t IH]; cbn [app].
  - destruct l as [|c l]; cbn [first_len length]; [reflexivity|]. cbn in Hl. rewrite Hl. reflexivity.
  - cbn [forallb] in H. apply andb_prop in H as [Hc H]. apply negb_true_iff in Hc. cbn [first_len length]. rewrite Hc, IH by assumption. reflexivity.
Qed.
Lemma take_word n t l : word t = true -> length t <= n -> ends l -> take n (t ++ l) = (t, l).
Proof.
  unfold word. intros H Hn Hl. apply andb_prop in H as [H _]. revert n Hn. induction t as [|c t IH]; intros n Hn; cbn [app].
  - destruct n; [destruct l; reflexivity|]. destruct l as [|c l]; cbn [take]; [reflexivity|]. cbn in Hl. rewrite Hl. reflexivity.
  - cbn [forallb length] in *. apply andb_prop in H as [Hc H]. apply negb_true_iff in Hc. destruct n as [|n]; [lia|]. cbn [take]. rewrite Hc, (IH H n) by lia. reflexivity.
Qed.
Lemma rd_word_ok wd pre t l : spaces pre -> word t = true -> length t < wd -> ends l -> rd_word wd (pre ++ t ++ l) = Word t l.
Proof.
  intros Hp Ht Hn Hl. unfold rd_word. rewrite skip_spaces by assumption.
  assert (E : skip (t ++ l) = t ++ l).
  { unfold word in Ht. destruct t as [|c t]; [discriminate|]. cbn [forallb length Nat.eqb negb] in Ht. cbn [app skip]. destruct (is_space c); [discriminate|reflexivity]. }
  rewrite E. destruct (t ++ l) as [|a u] eqn:Eu; [destruct t; discriminate|]. rewrite <- Eu, take_word by (auto; lia).
  destruct l as [|x l]; [reflexivity|]. cbn in Hl. rewrite Hl. reflexivity.
Qed.
Lemma rd_nl_some t r : no_nl t = true -> rd_nl (t ++ nlc :: r) = r.
Proof. unfold no_nl. induction t as [|c t IH]; cbn [forallb app rd_nl]; [reflexivity|]. intros H. apply andb_prop in H as [Hc H]. apply negb_true_iff in Hc. rewrite Hc. auto. Qed.
Lemma rd_nl_none t : no_nl t = true -> rd_nl t = [].
Proof. unfold no_nl. induction t as [|c t IH]; cbn [forallb rd_nl]; [reflexivity|]. intros H. apply andb_prop in H as [Hc H]. apply negb_true_iff in Hc. rewrite Hc. auto. Qed.
Lemma blank_spaces t : forallb blank t = true -> spaces t.
Proof. unfold spaces. induction t as [|c t IH]; cbn [forallb]; [reflexivity|]. intros H. apply andb_prop in H as [Hc H]. unfold blank in Hc. apply andb_prop in Hc as [-> _]. auto. Qed.
Lemma spaces_app a b : spaces a -> spaces b -> spaces (a ++ b).
Proof. unfold spaces. intros Ha Hb. rewrite forallb_app, Ha, Hb. reflexivity. Qed.
Lemma no_nl_app a b : no_nl (a ++ b) = no_nl a && no_nl b.
Proof. apply forallb_app. Qed.
(** the end of a line, and what follows it *)
Inductive eol : text -> text -> Prop := End_file : eol [] [] | End_line r : eol (nlc :: r) r.
Lemma eol_ends tl r : eol tl r -> ends tl.
Proof. intros []; [exact I|reflexivity]. Qed.
Lemma eol_nl tl r t : eol tl r -> no_nl t = true -> rd_nl (t ++ tl) = r.
Proof. intros [|r'] H; [rewrite app_nil_r; apply rd_nl_none, H|apply rd_nl_some, H]. Qed.
Lemma take_cons n c r : take (S n) (c :: r) = if is_space c then ([], c :: r) else let (w, r) := take n r in (c :: w, r).
Proof. reflexivity. Qed.
Lemma comment_step pre ws t tl r f : spaces pre -> ok_line (Comment ws t) = true -> eol tl r ->
  tabular (S f) (pre ++ line_text (Comment ws t) ++ tl) = tabular f r.
Proof.
  intros Hp Hok Htl. cbn [ok_line] in Hok. apply andb_prop in Hok as [Hok Hl]. apply andb_prop in Hok as [Hw Hn].
  cbn [line_text tabular]. rewrite <- app_assoc, app_assoc. cbn [app]. unfold rd_word. rewrite skip_spaces by (apply spaces_app; [assumption|apply blank_spaces, Hw]).
  cbn [skip]. change (is_space hash) with false. cbn iota. 
  destruct (take_first 62 t tl ltac:(lia) (eol_ends _ _ Htl)) as [w [r' [Et [Ht [He _]]]]].
  change (64 - 1) with (S 62). rewrite take_cons. change (is_space hash) with false. cbn iota. rewrite Ht.
  assert (E : match r' ++ tl with c :: _ => if is_space c then Word (hash :: w) (r' ++ tl) else Long | [] => Word (hash :: w) (r' ++ tl) end = Word (hash :: w) (r' ++ tl))
    by (destruct (r' ++ tl) as [|x y]; [reflexivity|]; cbn in He; rewrite He; reflexivity).
  rewrite E. cbn [is_comment]. change (Ascii.eqb hash hash) with true. cbn iota.
  rewrite (eol_nl _ _ _ Htl); [reflexivity|]. rewrite Et, no_nl_app in Hn. apply andb_prop in Hn. tauto.
Qed.
Lemma setting_step pre ws k ws' v rest tl r f : spaces pre -> ok_line (Setting ws k ws' v rest) = true -> eol tl r ->
  tabular (S f) (pre ++ line_text (Setting ws k ws' v rest) ++ tl) = match tabular f r with Some (Pairs p) => Some (Pairs ((k, v) :: p)) | x => x end.
Proof.
  intros Hp Hok Htl. cbn [ok_line] in Hok. repeat (apply andb_prop in Hok as [Hok ?]). cbn [line_text tabular].
  replace (pre ++ (ws ++ k ++ ws' ++ v ++ rest) ++ tl) with ((pre ++ ws) ++ k ++ ws' ++ v ++ rest ++ tl) by (rewrite <- !app_assoc; reflexivity).
  rewrite rd_word_ok.
  - assert (is_comment k = false) as -> by (apply negb_true_iff; assumption).
    assert (ends (rest ++ tl)) by (destruct rest as [|c rest]; [apply (eol_ends _ _ Htl)|assumption]).
    rewrite rd_word_ok by (auto using blank_spaces; lia). rewrite (eol_nl _ _ _ Htl) by assumption. reflexivity.
  - apply spaces_app; [assumption|apply blank_spaces; assumption].
  - assumption.
  - lia.
  - destruct ws' as [|c ws']; [discriminate|]. cbn. assert (HB : spaces (c :: ws')) by (apply blank_spaces; assumption). unfold spaces in HB. cbn [forallb] in HB. apply andb_prop in HB. tauto.
Qed.
Lemma tabular_end f l : spaces l -> tabular (S f) l = Some (Pairs []).
Proof. intros H. cbn [tabular]. unfold rd_word. rewrite skip_none by assumption. reflexivity. Qed.
Lemma file_cons l ls last : file (l :: ls) last = line_text l ++ nlc :: file ls last.
Proof. unfold file. cbn [map concat]. rewrite <- !app_assoc. reflexivity. Qed.
Theorem tabular_file ls last : forallb ok_line ls = true -> ok_line last = true -> forall f pre, spaces pre -> length ls + 1 < f ->
  tabular f (pre ++ file ls last) = Some (Pairs (settings (ls ++ [last]))).
Proof.
  intros Hls Hlast. induction ls as [|l ls IH]; intros f pre Hp Hf.
  - destruct f as [|[|f]]; [cbn in Hf; lia|cbn in Hf; lia|]. unfold file. cbn [map concat app].
    unfold settings. cbn [map concat]. rewrite app_nil_r. destruct last as [ws|ws t|ws k ws' v rest]; cbn [setting].
    + cbn [line_text]. apply tabular_end, spaces_app; [assumption|apply blank_spaces; assumption].
    + rewrite <- (app_nil_r (line_text _)), (comment_step _ _ _ _ _ _ Hp Hlast End_file). apply tabular_end. reflexivity.
    + rewrite <- (app_nil_r (line_text _)), (setting_step _ _ _ _ _ _ _ _ _ Hp Hlast End_file). rewrite tabular_end by reflexivity. reflexivity.
  - cbn [forallb] in Hls. apply andb_prop in Hls as [Hl Hls]. rewrite file_cons. unfold settings. cbn [app map concat]. fold (settings (ls ++ [last])).
    destruct f as [|f]; [lia|]. cbn [length] in Hf. destruct l as [ws|ws t|ws k ws' v rest]; cbn [setting app].
    + cbn [line_text]. replace (pre ++ ws ++ nlc :: file ls last) with ((pre ++ ws ++ [nlc]) ++ file ls last) by (rewrite <- !app_assoc; reflexivity).
      apply IH; [assumption|apply spaces_app; [assumption|apply spaces_app; [apply blank_spaces; assumption|reflexivity]]|lia].
    + rewrite (comment_step _ _ _ _ _ _ Hp Hl (End_line _)). apply (IH Hls f []); [reflexivity|lia].
    + rewrite (setting_step _ _ _ _ _ _ _ _ _ Hp Hl (End_line _)). assert (E := IH Hls f [] eq_refl ltac:(lia)). cbn [app] in E. rewrite E. reflexivity.
Qed.
Lemma file_length ls last : length ls <= length (file ls last).
Proof. induction ls as [|l ls IH]; [cbn; lia|]. rewrite file_cons, app_length. cbn [length]. lia. Qed.

(** * Pairs *)
Lemma add_room s : fst s <= snd s -> let (s', i) := add_pair s in fst s' <= snd s' /\ i < snd s'.
Proof.
  destruct s as [size max]. cbn [fst snd add_pair]. intros H. destruct (Nat.eqb_spec max 0); [subst; lia|]. destruct (Nat.eqb_spec size max); subst; lia.
Qed.
Lemma add_pairs_room n s : fst s <= snd s -> fst (add_pairs n s) <= snd (add_pairs n s).
Proof.
  revert s. induction n as [|n IH]; intros s H; [exact H|]. cbn [add_pairs]. apply IH. assert (R := add_room s H). destruct (add_pair s) as [s' i]. apply R.
Qed.

(** * Entries *)
Lemma eqt_spec a b : reflect (a = b) (eqt a b).
Proof. unfold eqt. destruct (list_eq_dec ascii_dec a b); constructor; assumption. Qed.
Definition set (o : option val) : bool := match o with Some _ => true | None => false end.
Definition cnt (vars : list (option val)) : nat := length (filter set vars).
Definition R (done : list (text * text)) (e : entry) (o : option val) : Prop :=
  match o with
  | Some x => exists i v, nth_error done i = Some (key e, v) /\ parse e i v = Some x /\ valid e x = true
  | None => ~ In (key e) (map fst done)
  end.
Lemma R_other done k v e o : key e <> k -> R done e o -> R (done ++ [(k, v)]) e o.
Proof.
  intros Hk. destruct o as [x|]; cbn [R].
  - intros [i [w [H1 H2]]]. exists i, w. split; [|exact H2]. rewrite nth_error_app1; [exact H1|]. apply nth_error_Some. congruence.
  - rewrite map_app, in_app_iff. cbn [map fst In]. intros H [H'|[H'|[]]]; [auto|congruence].
Qed.
Lemma find_none k es : find k es = None -> forall e, In e es -> key e <> k.
Proof.
  induction es as [|e es IH]; [intros _ e []|]. cbn [find]. destruct (eqt_spec k (key e)); [discriminate|]. destruct (find k es) as [[j x]|]; [discriminate|].
  intros _ e' [E|H]; [subst; congruence|]. apply IH; [reflexivity|exact H].
Qed.
Lemma find_some k es j e : find k es = Some (j, e) -> In e es /\ key e = k.
Proof.
  revert j. induction es as [|e' es IH]; intros j; [discriminate|]. cbn [find]. destruct (eqt_spec k (key e')).
  - intros [= <- <-]. split; [apply in_eq|congruence].
  - destruct (find k es) as [[j' x]|] eqn:E; [|discriminate]. intros [= <- <-]. destruct (IH j' eq_refl). split; [apply in_cons; assumption|assumption].
Qed.
Lemma find_known k es j e : find k es = Some (j, e) -> known es k = true.
Proof. intros H. apply find_some in H as [H1 H2]. apply existsb_exists. exists e. split; [exact H1|]. destruct (eqt_spec k (key e)); congruence. Qed.
Lemma R_unknown es vars done k v : Forall2 (R done) es vars -> (forall e, In e es -> key e <> k) -> Forall2 (R (done ++ [(k, v)])) es vars.
Proof.
  induction 1 as [|e o es vars HR _ IH]; intros H; constructor; [apply R_other; [apply H, in_eq|exact HR]|]. apply IH. intros e' He. apply H, in_cons, He.
Qed.
Lemma R_known es vars done k v j e x : Forall2 (R done) es vars -> NoDup (map key es) -> find k es = Some (j, e) -> ~ In k (map fst done) ->
  parse e (length done) v = Some x -> valid e x = true ->
  Forall2 (R (done ++ [(k, v)])) es (upd j (Some x) vars) /\ cnt (upd j (Some x) vars) = S (cnt vars).
Proof.
  intros HF. revert j. induction HF as [|e' o es vars HR HF IH]; intros j HN Hf Hk Hp Hv; [discriminate|].
  cbn [map] in HN. inversion HN as [|a l Hni HN']; subst. cbn [find] in Hf. destruct (eqt_spec k (key e')) as [E|E].
  - injection Hf as <- <-. cbn [upd]. destruct o as [y|].
    + exfalso. apply Hk. destruct HR as [i [w [Hi _]]]. apply nth_error_In in Hi. apply (in_map fst) in Hi. cbn [fst] in Hi. congruence.
    + split; [|reflexivity]. constructor.
      * exists (length done), v. split; [|split; assumption]. rewrite nth_error_app2, Nat.sub_diag by lia. cbn. congruence.
      * apply R_unknown; [exact HF|]. intros e'' He Ek. apply Hni. rewrite <- E, <- Ek. apply in_map, He.
  - destruct (find k es) as [[j' x']|] eqn:Ef; [|discriminate]. injection Hf as <- <-. cbn [upd].
    destruct (IH j' HN' eq_refl Hk Hp Hv) as [H1 H2]. split.
    + constructor; [apply R_other; [congruence|exact HR]|exact H1].
    + unfold cnt in *. cbn [filter]. destruct (set o); cbn [length]; rewrite H2; reflexivity.
Qed.
Lemma cnt_le vars : cnt vars <= length vars.
Proof. unfold cnt. induction vars as [|o l IH]; cbn [filter length]; [lia|]. destruct (set o); cbn [length]; lia. Qed.
Lemma cnt_full es vars done ps : Forall2 (R done) es vars -> cnt vars = length vars -> (forall i p, nth_error done i = Some p -> nth_error ps i = Some p) -> Forall2 (assigned ps) es vars.
Proof.
  intros HF HC Hps. induction HF as [|e o es vars HR _ IH]; constructor.
  - destruct o as [x|].
    + destruct HR as [i [v [H1 [H2 H3]]]]. exists i, v, x. repeat split; auto.
    + exfalso. unfold cnt in HC. cbn [filter set length] in HC. assert (H := cnt_le vars). unfold cnt in H. lia.
  - apply IH. unfold cnt in *. cbn [filter length] in HC. assert (H := cnt_le vars). unfold cnt in H. destruct (set o); cbn [length] in HC; lia.
Qed.
Lemma cnt_absent es vars done : Forall2 (R done) es vars -> length vars - cnt vars = length (filter (absent done) es).
Proof.
  induction 1 as [|e o es vars HR _ IH]; [reflexivity|]. assert (H := cnt_le vars). unfold cnt in *. cbn [filter length].
  assert (A : absent done e = negb (set o)).
  { unfold absent. f_equal. destruct o as [x|]; cbn [set].
    - destruct HR as [i [v [Hi _]]]. apply existsb_exists. exists (key e, v). split; [apply nth_error_In in Hi; exact Hi|]. cbn [fst]. destruct (eqt_spec (key e) (key e)); congruence.
    - apply not_true_is_false. intros E. apply existsb_exists in E as [p [Hp E]]. destruct (eqt_spec (fst p) (key e)) as [Ek|]; [|discriminate]. apply HR. rewrite <- Ek. apply in_map, Hp. }
  rewrite A. destruct (set o); cbn [negb length]; lia.
Qed.
(** what the result means *)
Definition meaning (es : list entry) (ps : list (text * text)) (o : out) : Prop :=
  match o with
  | Done vars => Forall2 (assigned ps) es vars
  | ParseFail k v => exists i e, nth_error ps i = Some (k, v) /\ In e es /\ key e = k /\ parse e i v = None
  | ValidFail k v => exists i e x, nth_error ps i = Some (k, v) /\ In e es /\ key e = k /\ parse e i v = Some x /\ valid e x = false
  | Missing n => n = length (filter (absent ps) es) /\ 0 < n
  end.
Lemma Forall2_len {A B} (P : A -> B -> Prop) l l' : Forall2 P l l' -> length l = length l'.
Proof. induction 1; cbn [length]; congruence. Qed.
Lemma conf_meaning es : NoDup (map key es) -> forall todo done vars, once es (done ++ todo) -> Forall2 (R done) es vars ->
  meaning es (done ++ todo) (conf es todo (length done) (cnt vars) vars).
Proof.
  intros HN. induction todo as [|[k v] todo IH]; intros done vars HO HR; assert (HL := Forall2_len _ _ _ HR); assert (HC := cnt_le vars).
  - cbn [conf]. unfold finish. rewrite app_nil_r. destruct (Nat.ltb_spec (cnt vars) (length es)); cbn [meaning].
    + rewrite HL, (cnt_absent _ _ _ HR). assert (H' := cnt_absent _ _ _ HR). lia.
    + eapply cnt_full; [exact HR|lia|auto].
  - cbn [conf]. destruct (Nat.eqb_spec (cnt vars) (length es)) as [E|E].
    + unfold finish. destruct (Nat.ltb_spec (cnt vars) (length es)); [lia|]. cbn [meaning]. eapply cnt_full; [exact HR|lia|].
      intros i p Hi. rewrite nth_error_app1; [exact Hi|]. apply nth_error_Some. congruence.
    + assert (EL : forall p : text * text, length (done ++ [p]) = S (length done)) by (intros p; rewrite app_length; cbn [length]; lia).
      assert (EN : nth_error (done ++ (k, v) :: todo) (length done) = Some (k, v)) by (rewrite nth_error_app2, Nat.sub_diag by lia; reflexivity).
      assert (EA : done ++ (k, v) :: todo = (done ++ [(k, v)]) ++ todo) by (rewrite <- app_assoc; reflexivity).
      destruct (find k es) as [[j e]|] eqn:Ef.
      * destruct (find_some _ _ _ _ Ef) as [Hin Hkey].
        destruct (parse e (length done) v) as [x|] eqn:Ep.
        -- destruct (valid e x) eqn:Ev.
           ++ assert (Hk : ~ In k (map fst done)).
              { unfold once in HO. rewrite map_app, filter_app in HO. cbn [map fst filter] in HO. rewrite (find_known _ _ _ _ Ef) in HO. apply NoDup_remove_2 in HO.
                intros H. apply HO, in_or_app, or_introl, filter_In. split; [exact H|exact (find_known _ _ _ _ Ef)]. }
              destruct (R_known es vars done k v j e x HR HN Ef Hk Ep Ev) as [H1 H2].
              specialize (IH (done ++ [(k, v)]) (upd j (Some x) vars)). rewrite EL, H2, <- EA in IH. apply IH; [exact HO|exact H1].
           ++ cbn [meaning]. exists (length done), e, x. repeat split; assumption.
        -- cbn [meaning]. exists (length done), e. repeat split; assumption.
      * specialize (IH (done ++ [(k, v)]) vars). rewrite EL, <- EA in IH. apply IH; [exact HO|]. apply R_unknown; [exact HR|]. apply find_none, Ef.
Qed.
Lemma R_start es : Forall2 (R []) es (map (fun _ => None) es).
Proof. induction es as [|e es IH]; constructor; [intros []|exact IH]. Qed.
Lemma cnt_start es : cnt (map (fun _ : entry => None) es) = 0.
Proof. induction es as [|e es IH]; [reflexivity|]. exact IH. Qed.
Theorem parse_config_meaning es ps : NoDup (map key es) -> once es ps -> meaning es ps (fst (parse_config es ps)).
Proof. intros HN HO. cbn [parse_config fst]. assert (H := conf_meaning es HN ps [] (map (fun _ => None) es) HO (R_start es)). rewrite cnt_start in H. exact H. Qed.
