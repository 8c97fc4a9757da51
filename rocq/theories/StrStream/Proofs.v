From Coq Require Import ZArith List Bool Lia ZifyBool.
From Verif.StrStream Require Import Model Spec.
Import ListNotations.
Open Scope Z_scope.
Definition Rel (b n : Z) (m0 : Z -> Z) (s : os) (a : abs) : Prop :=
  buf s = b /\ size s = n /\ cursor s = len (pending a) /\ (len (pending a) < n \/ pending a = []) /\ out s = written a /\
  (forall i, (i < length (pending a))%nat -> mem s (b + Z.of_nat i) = nth i (pending a) 0) /\ (forall x, x < b \/ b + n <= x -> mem s x = m0 x).
Lemma len_app s t : len (s ++ t) = len s + len t. Proof. unfold len. rewrite app_length. lia. Qed.
Lemma len_nn t : 0 <= len t. Proof. unfold len. lia. Qed.
Lemma put_out m a t x : x < a \/ a + len t <= x -> put m a t x = m x.
Proof. intros H. unfold put. destruct (a <=? x) eqn:A, (x <? a + len t) eqn:B; try reflexivity. lia. Qed.
Lemma put_in m a t i : (i < length t)%nat -> put m a t (a + Z.of_nat i) = nth i t 0.
Proof. intros H. unfold put, len. destruct (a <=? a + Z.of_nat i) eqn:A; [|lia]. destruct (a + Z.of_nat i <? a + Z.of_nat (length t)) eqn:B; [|lia]. cbn [andb]. f_equal. lia. Qed.
(** vsnprintf stays inside *)
Lemma vs_out m a n r x : 0 <= n -> x < a \/ a + n <= x -> fst (vsnprintf m a n r) x = m x.
Proof.
  intros Hn H. unfold vsnprintf. cbn [fst]. destruct (Z.eqb_spec n 0); [reflexivity|]. apply put_out. rewrite len_app. unfold len at 1. rewrite firstn_length. cbn [length len].
  unfold len. cbn [length]. lia.
Qed.
Lemma text_at_ok m a t : (forall i, (i < length t)%nat -> m (a + Z.of_nat i) = nth i t 0) -> text_at m a (len t) = t.
Proof.
  intros H. unfold text_at, len. rewrite Nat2Z.id. apply nth_ext with (d := 0) (d' := 0); [rewrite map_length, seq_length; reflexivity|].
  intros i Hi. rewrite map_length, seq_length in Hi. rewrite (nth_indep _ 0 (m (a + Z.of_nat 0%nat))) by (rewrite map_length, seq_length; exact Hi).
  rewrite (map_nth (fun i => m (a + Z.of_nat i))). rewrite seq_nth by exact Hi. apply H. exact Hi.
Qed.
Lemma cursor_ok b n m0 s a : Rel b n m0 s a -> 0 <= n -> 0 <= cursor s <= n.
Proof. intros [_ [_ [E [H _]]]] Hn. rewrite E. pose proof (len_nn (pending a)). destruct H as [H|H]; [lia|]. rewrite H. cbn. lia. Qed.
Lemma step_rel b n m0 o s a : 0 <= n <= 2 ^ 63 -> fine o -> Rel b n m0 s a ->
  match spec_step n o a, step o s with
  | Some a', Done _ s' => Rel b n m0 s' a'
  | None, Abort m => forall x, x < b \/ b + n <= x -> m x = m0 x
  | _, _ => False
  end.
Proof.
  intros Hn Hf R. pose proof (cursor_ok b n m0 s a R (proj1 Hn)) as Hc. destruct R as [<- [<- [Ec [Hp [Ho [Hm Hx]]]]]]. assert (W2 : W = 2 * 2 ^ 63) by reflexivity. assert (W31 : 2 ^ 31 - 1 < 2 ^ 63) by reflexivity.
  destruct o as [[t|w]| |]; cbn [spec_step step fine] in *; [|destruct Hf| |].
  - unfold fmt. destruct (vsnprintf (mem s) (buf s + cursor s) ((size s - cursor s) mod W) (Text t)) as [m k] eqn:E.
    assert (K : k = len t). { apply (f_equal snd) in E. cbn [snd vsnprintf] in E. subst k. unfold int_max, len. destruct (Z.of_nat (length t) <=? 2 ^ 31 - 1) eqn:F; [reflexivity|lia]. }
    assert (Hout : forall x, x < buf s + cursor s \/ buf s + size s <= x -> m x = mem s x).
    { intros x H. apply (f_equal fst) in E. cbn [fst] in E. rewrite <- E. apply vs_out; [apply Z.mod_pos_bound; reflexivity|]. rewrite Z.mod_small by lia. lia. }
    subst k. pose proof (len_nn t) as Lt. rewrite Z.mod_small by (unfold len in *; lia). fold (len (pending a ++ t)). rewrite len_app.
    destruct (size s <=? cursor s + len t) eqn:C.
    + destruct (len (pending a) + len t <? size s) eqn:D; [lia|]. intros x H. rewrite Hout by lia. apply Hx. exact H.
    + destruct (len (pending a) + len t <? size s) eqn:D; [|lia]. unfold Rel. cbn [buf size cursor out mem pending written].
      rewrite len_app. repeat split; try reflexivity; try lia; try assumption.
      * intros i Hi. rewrite app_length in Hi. destruct (Nat.ltb_spec i (length (pending a))) as [L|L].
        { rewrite app_nth1 by exact L. rewrite Hout; [apply Hm; exact L|]. rewrite Ec. unfold len. lia. }
        { rewrite app_nth2 by exact L. apply (f_equal fst) in E. cbn [fst] in E. rewrite <- E. unfold vsnprintf. cbn [fst]. rewrite Z.mod_small by lia.
          destruct (Z.eqb_spec (size s - cursor s) 0); [lia|].
          rewrite firstn_all2 by (unfold len in *; lia). replace (buf s + Z.of_nat i) with (buf s + cursor s + Z.of_nat (i - length (pending a))) by (rewrite Ec; unfold len; lia).
          rewrite put_in by (rewrite app_length; cbn [length]; lia). apply app_nth1. lia. }
      * intros x H. rewrite Hout by lia. apply Hx. exact H.
  - unfold write, Rel. cbn [buf size cursor out mem pending written length]. repeat split; try (right; reflexivity); try assumption.
    + rewrite Ho. f_equal. rewrite Ec. apply text_at_ok. exact Hm.
    + intros i Hi. lia.
  - unfold clear, Rel. cbn [buf size cursor out mem pending written length]. repeat split; try (right; reflexivity); try assumption. intros i Hi. lia.
Qed.
Lemma run_rel b n m0 : forall l s a, 0 <= n <= 2 ^ 63 -> Forall fine l -> Rel b n m0 s a ->
  match spec_run n l a, run l s with
  | Some a', Done _ s' => Rel b n m0 s' a'
  | None, Abort m => forall x, x < b \/ b + n <= x -> m x = m0 x
  | _, _ => False
  end.
Proof.
  induction l as [|o l IH]; intros s a Hn Hf R; [exact R|]. inversion Hf as [|? ? F1 F2]. subst. cbn [spec_run run]. pose proof (step_rel b n m0 o s a Hn F1 R) as H.
  destruct (spec_step n o a) as [a'|], (step o s) as [k s'|m]; try (destruct H; fail); [apply IH; assumption|exact H].
Qed.
(** reading *)
Lemma is_space_spec c : is_space c = true <-> space c. Proof. unfold is_space, space. split; [|intros [->|H]; [reflexivity|]]; lia. Qed.
Lemma not_space c : ~ space c -> is_space c = false. Proof. intros H. destruct (is_space c) eqn:E; [apply is_space_spec in E; contradiction|reflexivity]. Qed.
Lemma word_stop w r : (forall c, In c w -> ~ space c) -> (r = [] \/ exists c l, r = c :: l /\ space c) -> word (w ++ r) = w.
Proof.
  intros H Hr. induction w as [|c w IH]; cbn [app word].
  - destruct Hr as [->|[c [l [-> Hc]]]]; [reflexivity|]. cbn [word]. rewrite (proj2 (is_space_spec c) Hc). reflexivity.
  - rewrite not_space by (apply H; left; reflexivity). f_equal. apply IH. intros d Hd. apply H. right. exact Hd.
Qed.
Lemma to_blank_word w r : (forall c, In c w -> ~ space c) -> to_blank (w ++ r) = to_blank r.
Proof.
  intros H. induction w as [|c w IH]; [reflexivity|]. cbn [app to_blank]. assert (N := H c (or_introl eq_refl)). unfold space in N. destruct ((c =? 32) || (c =? 9)) eqn:E; [lia|]. apply IH. intros d Hd. apply H. right. exact Hd.
Qed.
Lemma skip_word w r : is_word w -> skip (w ++ r) = w ++ r.
Proof. intros [N H]. destruct w as [|c w]; [congruence|]. cbn [app skip]. rewrite not_space by (apply H; left; reflexivity). reflexivity. Qed.
Lemma scan_word w r : is_word w -> (r = [] \/ exists c l, r = c :: l /\ space c) -> sscanf_s (w ++ r) = Some w.
Proof.
  intros Hw Hr. unfold sscanf_s. rewrite skip_word by exact Hw. destruct Hw as [N H]. destruct w as [|c w]; [congruence|]. rewrite <- (word_stop (c :: w) r H Hr) at 2. reflexivity.
Qed.

Lemma spaced_shape ws w : is_word w -> Forall (fun p => is_word (fst p) /\ (snd p = 32 \/ snd p = 9)) ws -> exists v r, spaced ws w = v ++ r /\ is_word v.
Proof. intros Hw H. destruct ws as [|[v c] ws]; [exists w, []; cbn [spaced]; rewrite app_nil_r; auto|]. inversion H as [|? ? [A _] _]. subst. exists v, (c :: spaced ws w). auto. Qed.
Lemma reads_spaced : forall ws w, is_word w -> Forall (fun p => is_word (fst p) /\ (snd p = 32 \/ snd p = 9)) ws -> reads (S (length ws)) (spaced ws w) = Some (map fst ws ++ [w]).
Proof.
  induction ws as [|[v c] ws IH]; intros w Hw H.
  - cbn [length spaced map app reads]. unfold ifmt. rewrite <- (app_nil_r w) at 1. rewrite scan_word by auto. reflexivity.
  - inversion H as [|? ? [A B] H2]. subst. cbn [fst snd] in A, B. assert (Sc : space c) by (unfold space; lia).
    cbn [length spaced]. change (reads (S (S (length ws))) (v ++ c :: spaced ws w)) with (match ifmt (v ++ c :: spaced ws w) with Some (x, l) => option_map (cons x) (reads (S (length ws)) l) | None => None end).
    unfold ifmt. rewrite scan_word by (eauto 6). rewrite to_blank_word by (apply A). cbn [to_blank]. assert (E : (c =? 32) || (c =? 9) = true) by lia. rewrite E. rewrite IH by assumption. reflexivity.
Qed.
Lemma words_spaced : forall ws w, is_word w -> Forall (fun p => is_word (fst p) /\ (snd p = 32 \/ snd p = 9)) ws -> words (spaced ws w) (map fst ws ++ [w]).
Proof.
  induction ws as [|[v c] ws IH]; intros w Hw H; cbn [spaced map app fst]; [apply words_last; exact Hw|]. inversion H as [|? ? [A B] H2]. subst. apply words_cons; [exact A|unfold space; cbn [snd] in B; lia|apply IH; assumption].
Qed.
