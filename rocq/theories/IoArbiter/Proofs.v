From Coq Require Import List Bool Arith ZArith Lia ZifyBool.
From Verif.IoRing Require Import Model.
From Verif.IoArbiter Require Import Model Spec.
Import ListNotations.
Lemma put_length {A} i (x : A) l : length (put i x l) = length l.
Proof. revert i; induction l; intros [|i]; cbn [put length]; auto. Qed.
Lemma nth_put {A} i j (x : A) l : (i < length l)%nat -> nth_error (put i x l) j = if Nat.eqb j i then Some x else nth_error l j.
Proof. revert i j; induction l as [|y l IH]; intros [|i] [|j] H; cbn [length] in H; try lia; cbn [put nth_error Nat.eqb]; auto. apply IH; lia. Qed.
Lemma nth_lt {A} (l : list A) i x : nth_error l i = Some x -> (i < length l)%nat.
Proof. intros H; apply nth_error_Some; congruence. Qed.
Definition hand (c : pc) : list (nat * list Z) := match c with Sub t l => [(t, l)] | _ => [] end.
Definition late (c : pc) : list nat := match c with Wake t => [t] | _ => [] end.
Record data (s : st) (c : pc) : Prop := {
  d_asked : asked s = external s ++ hand c ++ q s;
  d_woken : map fst (external s) = woken s ++ late c;
  d_flag : flag s = true -> q s = [] }.
Inductive inv (s : st) : Prop :=
  | i_free : lk s = false -> (forall p c, nth_error (ps s) p = Some c -> inside c = false) -> data s Run -> inv s
  | i_busy p c : lk s = true -> nth_error (ps s) p = Some c -> inside c = true -> (forall p' c', nth_error (ps s) p' = Some c' -> inside c' = true -> p' = p) -> data s c -> inv s.
Lemma external_app x b : concat (map (fun b : option nat * list Z => match fst b with Some t => [(t, snd b)] | None => [] end) (x ++ [b])) = concat (map (fun b : option nat * list Z => match fst b with Some t => [(t, snd b)] | None => [] end) x) ++ match fst b with Some t => [(t, snd b)] | None => [] end.
Proof. rewrite map_app, concat_app. cbn [map concat]. rewrite app_nil_r. reflexivity. Qed.
(** the processor that changes is not inside, before and after *)
Lemma inv_out s s' p c c' : inv s -> nth_error (ps s) p = Some c -> inside c = false -> inside c' = false -> ps s' = put p c' (ps s) -> lk s' = lk s -> (forall d, data s d -> data s' d) -> inv s'.
Proof.
  intros I N W W' E L D. assert (Lp : (p < length (ps s))%nat) by (eapply nth_lt; eauto). destruct I as [B F Hd|p2 c2 B N2 W2 U Hd].
  - apply i_free; auto; [congruence|]. intros p' d H. rewrite E, nth_put in H by auto. destruct (Nat.eqb_spec p' p); [injection H as <-; auto|eauto].
  - apply i_busy with p2 c2; auto; [congruence| |].
    + rewrite E, nth_put by auto. destruct (Nat.eqb_spec p2 p); [subst; congruence|auto].
    + intros p' d H H'. rewrite E, nth_put in H by auto. destruct (Nat.eqb_spec p' p); [injection H as <-; congruence|eauto].
Qed.
Lemma inv_in s s' p c c' : inv s -> nth_error (ps s) p = Some c -> inside c = true -> ps s' = put p c' (ps s) -> lk s' = inside c' -> (data s c -> data s' (if inside c' then c' else Run)) -> inv s'.
Proof.
  intros I N W E L D. assert (Lp : (p < length (ps s))%nat) by (eapply nth_lt; eauto). destruct I as [B F Hd|p2 c2 B N2 W2 U Hd]; [rewrite (F _ _ N) in W; discriminate|].
  assert (p2 = p) by (symmetry; eapply U; eauto). subst p2. assert (c2 = c) by congruence. subst c2. specialize (D Hd). destruct (inside c') eqn:W'.
  - apply i_busy with p c'; auto.
    + rewrite E, nth_put, Nat.eqb_refl; auto.
    + intros p' d H H'. rewrite E, nth_put in H by auto. destruct (Nat.eqb_spec p' p); [auto|eauto].
  - apply i_free; auto. intros p' d H. rewrite E, nth_put in H by auto. destruct (Nat.eqb_spec p' p) as [->|Ne]; [injection H as <-; auto|]. destruct (inside d) eqn:Q; auto. destruct Ne; eauto.
Qed.
Lemma inv_same s s' : inv s -> ps s' = ps s -> lk s' = lk s -> (forall d, (lk s = false -> d = Run) -> data s d -> data s' d) -> inv s'.
Proof.
  intros I E L D. destruct I as [B F Hd|p2 c2 B N2 W2 U Hd].
  - apply i_free; [congruence|rewrite E; auto|apply D; auto].
  - apply i_busy with p2 c2; [congruence|rewrite E; auto|auto|rewrite E; auto|apply D; auto; congruence].
Qed.
Theorem inv_step s a s' : inv s -> step s a = Some s' -> inv s'.
Proof.
  intros I H. destruct a as [t l| |l|p|p|]; cbn [step] in H.
  - destruct (lk s) eqn:B; [discriminate|]. injection H as <-. apply (inv_same s); auto. intros d R D. specialize (R B). subst d. destruct D as [D1 D2 D3]. constructor; cbn [asked q woken flag]; [|exact D2|discriminate].
    unfold external in *; cbn [kr hand app] in *. rewrite D1, <- app_assoc. reflexivity.
  - destruct (todo s) as [|we r]; [discriminate|]. injection H as <-. destruct (ps s) as [|[] o] eqn:E; try (apply (inv_same s); auto; intros d _ [D1 D2 D3]; constructor; auto).
    apply (inv_out s _ 0%nat Asleep (if we then Run else Asleep)); auto; cbn [ps lk]; [rewrite E; auto|destruct we; auto|rewrite E; destruct we; reflexivity|]. intros d [D1 D2 D3]; constructor; auto.
  - destruct (nth_error (ps s) 0) as [[]|]; try discriminate. destruct (lk s) eqn:B; [discriminate|]. injection H as <-. apply (inv_same s); auto. intros d _ [D1 D2 D3]. constructor; cbn [asked q woken flag]; auto; unfold external in *; cbn [kr]; rewrite external_app; cbn [fst]; rewrite app_nil_r; auto.
  - destruct (nth_error (ps s) p) as [c|] eqn:N; [|discriminate]. destruct c as [| | | |t l|t| | |]; try discriminate.
    + injection H as <-. apply (inv_out s _ p Test (if flag s then Call else Get)); auto; [destruct (flag s); auto|]. intros d [D1 D2 D3]; constructor; auto.
    + destruct (lk s) eqn:B; [discriminate|]. injection H as <-. destruct I as [_ F [D1 D2 D3]|p2 c2 B2 _ _ _ _]; [|congruence]. assert (Lp : (p < length (ps s))%nat) by (eapply nth_lt; eauto).
      apply i_busy with p In; cbn [at_ lk ps]; auto.
      * rewrite nth_put, Nat.eqb_refl; auto.
      * intros p' c' H H'. rewrite nth_put in H by auto. destruct (Nat.eqb_spec p' p); auto. rewrite (F _ _ H) in H'. discriminate.
      * constructor; auto.
    + destruct (q s) as [|[t l] r] eqn:Q; injection H as <-.
      * apply (inv_in s _ p In Call); auto. cbn [inside]. intros [D1 D2 D3]. constructor; auto. unfold external in *; cbn [kr at_ asked hand app q] in *. rewrite D1, Q. reflexivity.
      * assert (B : lk s = true). { destruct I as [B F _|? ? B]; auto. discriminate (F _ _ N). }
        apply (inv_in s _ p In (Sub t l)); auto. cbn [inside]. intros [D1 D2 D3]. constructor; auto; unfold external in *; cbn [kr at_ asked hand app q late flag woken] in *; [rewrite D1, Q; reflexivity|]. intros Fl. specialize (D3 Fl). congruence.
    + injection H as <-. assert (B : lk s = true). { destruct I as [B F _|? ? B]; auto. discriminate (F _ _ N). }
      apply (inv_in s _ p (Sub t l) (Wake t)); auto. cbn [inside]. intros [D1 D2 D3]. constructor; auto; unfold external in *; cbn [kr at_ asked hand app q late flag woken] in *; rewrite external_app; cbn [fst snd].
      * rewrite D1, <- app_assoc. reflexivity.
      * rewrite map_app, D2, app_nil_r. reflexivity.
    + injection H as <-. assert (B : lk s = true). { destruct I as [B F _|? ? B]; auto. discriminate (F _ _ N). }
      apply (inv_in s _ p (Wake t) In); auto. cbn [inside]. intros [D1 D2 D3]. constructor; auto; unfold external in *; cbn [kr at_ asked hand app q late flag woken] in *; auto. rewrite app_nil_r; auto.
    + injection H as <-. apply (inv_out s _ p Call Flushed); auto; try (destruct (Nat.eqb (ts s) 0); reflexivity). intros d [D1 D2 D3]. destruct (Nat.eqb (ts s) 0); constructor; auto.
    + injection H as <-. apply (inv_out s _ p Flushed Run); auto. intros d [D1 D2 D3]; constructor; auto.
  - destruct (nth_error (ps s) p) as [[]|] eqn:N; try discriminate. injection H as <-. apply (inv_out s _ p Run Test); auto. intros d [D1 D2 D3]; constructor; auto.
  - destruct (nth_error (ps s) 0) as [[]|] eqn:N; try discriminate. injection H as <-. apply (inv_out s _ 0%nat Flushed Asleep); auto. intros d [D1 D2 D3]; constructor; auto.
Qed.
Lemma inv_start n : inv (start n).
Proof. apply i_free; auto; [|constructor; auto]. intros p c H. cbn [start ps] in H. apply nth_error_In, repeat_spec in H. subst; reflexivity. Qed.
Lemma inv_steps l : forall s s', inv s -> steps s l = Some s' -> inv s'.
Proof. induction l as [|a l IH]; cbn [steps]; intros s s' I H; [congruence|]. destruct (step s a) as [s1|] eqn:E; [|discriminate]. apply (IH s1); auto. eapply inv_step; eauto. Qed.
Lemma asked_steps l : forall s s', steps s l = Some s' -> asked s' = asked s ++ requests l /\ own s' = own s ++ owned l.
Proof.
  induction l as [|a l IH]; cbn [steps]; intros s s' H; [injection H as <-; rewrite !app_nil_r; auto|]. destruct (step s a) as [s1|] eqn:E; [|discriminate]. destruct (IH _ _ H) as [-> ->]. unfold requests, owned; cbn [map concat]. rewrite !app_assoc.
  assert (G : asked s1 = asked s ++ match a with Ext t e => [(t, e)] | _ => [] end /\ own s1 = own s ++ match a with Own e => [e] | _ => [] end); [|destruct G as [-> ->]; auto].
  clear H IH. unfold own. destruct a as [t e| |e|p|p|]; cbn [step] in E; rewrite ?app_nil_r.
  - destruct (lk s); [discriminate|]. injection E as <-. cbn [asked kr]. auto.
  - destruct (todo s) as [|we r]; [discriminate|]. injection E as <-. auto.
  - destruct (nth_error (ps s) 0) as [[]|]; try discriminate. destruct (lk s); [discriminate|]. injection E as <-. cbn [asked kr]. rewrite map_app, concat_app. cbn [map concat fst snd]. rewrite app_nil_r. auto.
  - destruct (nth_error (ps s) p) as [[| | | |t l0|t| | |]|]; try discriminate.
    + injection E as <-; auto.
    + destruct (lk s); [discriminate|]. injection E as <-; auto.
    + destruct (q s) as [|[t l0] r]; injection E as <-; auto.
    + injection E as <-. cbn [at_ asked kr]. rewrite map_app, concat_app. cbn [map concat fst]. rewrite !app_nil_r. auto.
    + injection E as <-; auto.
    + injection E as <-. destruct (Nat.eqb (ts s) 0); auto.
    + injection E as <-; auto.
  - destruct (nth_error (ps s) p) as [[]|]; try discriminate. injection E as <-; auto.
  - destruct (nth_error (ps s) 0) as [[]|]; try discriminate. injection E as <-; auto.
Qed.
(** the processors come to an end when nobody disturbs *)
Definition left_ (s : st) : nat := length (asked s) - length (woken s).
Definition wc (c : pc) (u : nat) : nat := match c with In => match u with O => 1 | _ => 3 end | Sub _ _ => 2 | Wake _ => 1 | _ => 0 end.
Definition wp (c : pc) : nat := match c with Call => 8 | Flushed => 7 | Run => 6 | Test => 5 | _ => 4 end.
Definition wt (p : nat) (l : list pc) (u : nat) : nat :=
  match find inside l with Some c => wc c u | None => match u with O => 0 | _ => match nth_error l p with Some c => wp c | None => 0 end end end.
Definition mu (p : nat) (s : st) : nat := 10 * left_ s + wt p (ps s) (left_ s).
Lemma find_busy l p c : nth_error l p = Some c -> inside c = true -> (forall p' c', nth_error l p' = Some c' -> inside c' = true -> p' = p) -> find inside l = Some c.
Proof.
  intros N W U. destruct (find inside l) as [c'|] eqn:F.
  - apply find_some in F. destruct F as [F1 F2]. apply In_nth_error in F1. destruct F1 as (p' & F1). assert (p' = p) by eauto. congruence.
  - apply nth_error_In in N. rewrite (find_none _ _ F _ N) in W. discriminate.
Qed.
Lemma find_idle l : (forall p c, nth_error l p = Some c -> inside c = false) -> find inside l = None.
Proof. intros H. destruct (find inside l) as [c|] eqn:F; auto. apply find_some in F. destruct F as [F1 F2]. apply In_nth_error in F1. destruct F1 as (p & F1). rewrite (H _ _ F1) in F2. discriminate. Qed.
Lemma wt_max p l u : (wt p l u <= 8)%nat.
Proof. unfold wt. destruct (find inside l) as [[]|]; cbn [wc]; try lia; destruct u; try lia; destruct (nth_error l p) as [[]|]; cbn [wp]; lia. Qed.
Lemma left_is s c : data s c -> left_ s = (length (late c) + length (hand c) + length (q s))%nat.
Proof. intros [D1 D2 _]. unfold left_. rewrite D1. assert (L := f_equal (@length _) D2). rewrite map_length, app_length in L. rewrite !app_length. lia. Qed.
Theorem goes_on s p c : inv s -> nth_error (ps s) p = Some c -> awake c = true ->
  (left_ s = 0%nat /\ lk s = false) \/ exists a s' c', by_processors [a] /\ step s a = Some s' /\ nth_error (ps s') p = Some c' /\ awake c' = true /\ (mu p s' < mu p s)%nat.
Proof.
  intros I Np Aw. assert (Lp : (p < length (ps s))%nat) by (eapply nth_lt; eauto). destruct I as [B F Hd|p2 c2 B N W U Hd].
  - pose proof (left_is _ _ Hd) as L. cbn [late hand length Nat.add] in L. destruct (q s) as [|x r] eqn:Q; [left; auto|]. right. pose proof (F _ _ Np) as W.
    assert (Fl : flag s = false). { destruct (flag s) eqn:E; auto. pose proof (d_flag _ _ Hd E). congruence. }
    assert (M : mu p s = (10 * left_ s + wp c)%nat). { unfold mu, wt. rewrite (find_idle _ F), L, Np. reflexivity. } rewrite M.
    assert (T : forall s' c', inside c' = false -> ps s' = put p c' (ps s) -> left_ s' = left_ s -> mu p s' = (10 * left_ s + wp c')%nat).
    { intros s' c' W' E E'. unfold mu, wt. rewrite E, E', find_idle, L; [rewrite nth_put, Nat.eqb_refl by auto; reflexivity|]. intros p' d H. rewrite nth_put in H by auto. destruct (Nat.eqb_spec p' p); [injection H as <-; auto|eauto]. }
    assert (NP : forall d, nth_error (put p d (ps s)) p = Some d) by (intros d; rewrite nth_put, Nat.eqb_refl; auto).
    destruct c as [| | | |t l|t| | |]; try discriminate.
    + exists (Begin p). cbn [step]. rewrite Np. do 2 eexists. split; [repeat constructor|]. split; [reflexivity|]. split; [apply NP|]. split; [reflexivity|]. rewrite (T _ Test); auto. cbn [wp]. lia.
    + exists (Go p). cbn [step]. rewrite Np, Fl. do 2 eexists. split; [repeat constructor|]. split; [reflexivity|]. split; [apply NP|]. split; [reflexivity|]. rewrite (T _ Get); auto. cbn [wp]. lia.
    + exists (Go p). cbn [step]. rewrite Np, B. do 2 eexists. split; [repeat constructor|]. split; [reflexivity|]. split; [apply NP|]. split; [reflexivity|]. unfold mu. match goal with |- (10 * left_ ?s' + _ < _)%nat => change (left_ s') with (left_ s) end. cbn [at_ ps]. unfold wt.
      rewrite (find_busy _ p In); [rewrite L; cbn [length wc wp]; lia|apply NP|auto|]. intros p' d H H'. rewrite nth_put in H by auto. destruct (Nat.eqb_spec p' p); auto. rewrite (F _ _ H) in H'. discriminate.
    + exists (Go p). cbn [step]. rewrite Np. do 2 eexists. split; [repeat constructor|]. split; [reflexivity|]. split; [|split; [|rewrite (T _ Flushed); auto; [cbn [wp]; lia|..]]].
      * destruct (Nat.eqb (ts s) 0); apply NP.
      * reflexivity.
      * destruct (Nat.eqb (ts s) 0); reflexivity.
      * destruct (Nat.eqb (ts s) 0); reflexivity.
    + exists (Go p). cbn [step]. rewrite Np. do 2 eexists. split; [repeat constructor|]. split; [reflexivity|]. split; [apply NP|]. split; [reflexivity|]. rewrite (T _ Run); auto. cbn [wp]. lia.
  - right. exists (Go p2). assert (L2 : (p2 < length (ps s))%nat) by (eapply nth_lt; eauto). pose proof (left_is _ _ Hd) as L.
    assert (M : mu p s = (10 * left_ s + wc c2 (left_ s))%nat) by (unfold mu, wt; rewrite (find_busy _ _ _ N W U); reflexivity). rewrite M. cbn [step]. rewrite N.
    assert (NP : forall d, awake d = true -> exists d', nth_error (put p2 d (ps s)) p = Some d' /\ awake d' = true). { intros d D. rewrite nth_put by auto. destruct (Nat.eqb_spec p p2); eauto. }
    assert (T : forall s' c', inside c' = true -> ps s' = put p2 c' (ps s) -> mu p s' = (10 * left_ s' + wc c' (left_ s'))%nat).
    { intros s' c' W' E. unfold mu, wt. rewrite E, (find_busy _ p2 c'); auto; [rewrite nth_put, Nat.eqb_refl; auto|]. intros p' d H H'. rewrite nth_put in H by auto. destruct (Nat.eqb_spec p' p2); auto. eauto. }
    destruct c2 as [| | | |t l|t| | |]; try discriminate.
    + cbn [late hand length Nat.add] in L. destruct (q s) as [|[t l] r] eqn:Q.
      * destruct (NP Call eq_refl) as (d' & ND & AD). exists (at_ (X [] true false (kr s) (ps s) (pend s) (todo s) (woken s) (ts s) (asked s)) p2 Call), d'. split; [repeat constructor|]. split; [reflexivity|]. split; [exact ND|]. split; [auto|].
        unfold mu. match goal with |- (10 * left_ ?s' + _ < _)%nat => change (left_ s') with (left_ s) end. cbn [length] in L. rewrite L. cbn [at_ ps]. unfold wt. rewrite find_idle; [cbn [wc]; lia|].
        intros p' d H. rewrite nth_put in H by auto. destruct (Nat.eqb_spec p' p2) as [->|Ne]; [injection H as <-; auto|]. destruct (inside d) eqn:E; auto. destruct Ne; eauto.
      * destruct (NP (Sub t l) eq_refl) as (d' & ND & AD). eexists _, d'. split; [repeat constructor|]. split; [reflexivity|]. split; [exact ND|]. split; [auto|]. rewrite (T _ (Sub t l)) by auto.
        match goal with |- (10 * left_ ?s' + _ < _)%nat => change (left_ s') with (left_ s) end. rewrite L. cbn [length wc]. lia.
    + destruct (NP (Wake t) eq_refl) as (d' & ND & AD). eexists _, d'. split; [repeat constructor|]. split; [reflexivity|]. split; [exact ND|]. split; [auto|]. rewrite (T _ (Wake t)) by auto.
      match goal with |- (10 * left_ ?s' + _ < _)%nat => change (left_ s') with (left_ s) end. cbn [wc]. lia.
    + destruct (NP In eq_refl) as (d' & ND & AD). eexists _, d'. split; [repeat constructor|]. split; [reflexivity|]. split; [exact ND|]. split; [auto|]. rewrite (T _ In) by auto. cbn [late hand length Nat.add] in L.
      match goal with |- (10 * left_ ?s' + _ < _)%nat => assert (E : (left_ s' + 1 = left_ s)%nat) end. { unfold left_ in *. cbn [at_ asked woken]. rewrite app_length. cbn [length]. lia. }
      cbn [wc]. match goal with |- context[match ?u with O => _ | S _ => _ end] => destruct u end; lia.
Qed.
Theorem flushes p n : forall s c, (mu p s <= n)%nat -> inv s -> nth_error (ps s) p = Some c -> awake c = true -> exists l s', by_processors l /\ steps s l = Some s' /\ left_ s' = 0%nat /\ lk s' = false.
Proof.
  induction n as [n IH] using lt_wf_ind. intros s c M I Np Aw. destruct (goes_on s p c I Np Aw) as [[D1 D2]|(a & s1 & c' & Ba & S1 & N1 & A1 & M1)].
  - exists [], s. repeat split; auto. constructor.
  - destruct (IH (mu p s1)) with s1 c' as (l & s' & B & St & Q); auto; [lia|eapply inv_step; eauto|].
    exists (a :: l), s'. split; [inversion Ba; constructor; auto|]. cbn [steps]. rewrite S1. auto.
Qed.
