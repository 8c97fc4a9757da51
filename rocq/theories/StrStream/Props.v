From Coq Require Import ZArith List Bool Lia ZifyBool.
From Verif.StrStream Require Import Model Spec Proofs.
Import ListNotations.
Open Scope Z_scope.
(** the stream refines the bounded stream: after any operations the buffer holds the pending text and the file the bytes written out, and the program is ended exactly when a text does not fit;
    memory outside the buffer is never changed *)
Theorem C119_stream : forall b n m0 l, 0 <= n <= 2 ^ 63 -> Forall fine l ->
  match spec_run n l (Abs [] []), run l (new b n m0) with
  | Some a, Done _ s => text_at (mem s) b (cursor s) = pending a /\ out s = written a /\ forall x, x < b \/ b + n <= x -> mem s x = m0 x
  | None, Abort m => forall x, x < b \/ b + n <= x -> m x = m0 x
  | _, _ => False
  end.
Proof.
  intros b n m0 l Hn Hf. assert (R : Rel b n m0 (new b n m0) (Abs [] [])).
  { unfold Rel, new. cbn [buf size cursor out mem pending written length]. repeat split; auto. intros i Hi. lia. }
  pose proof (run_rel b n m0 l _ _ Hn Hf R) as H. destruct (spec_run n l (Abs [] [])) as [a|], (run l (new b n m0)) as [k s|m]; try (destruct H; fail); [|exact H].
  destruct H as [_ [_ [Ec [_ [Ho [Hm Hx]]]]]]. split; [rewrite Ec; apply text_at_ok; exact Hm|]. split; assumption.
Qed.
Print Assumptions C119_stream.
(** the result of fmt is the length of the text *)
Theorem C119_length : forall t s n s', len t <= int_max -> fmt (Text t) s = Done n s' -> n = len t.
Proof.
  intros t s n s' H E. unfold fmt, vsnprintf in E. destruct (len t <=? int_max) eqn:F; [|lia]. match type of E with (if ?c then _ else _) = _ => destruct c; [discriminate|] end. congruence.
Qed.
Print Assumptions C119_length.
(** also with errors of formatting, memory outside the buffer is never changed *)
Theorem C119_bounds : forall b n m0 l, 0 <= n <= 2 ^ 63 ->
  match run l (new b n m0) with Done _ s => 0 <= cursor s <= n /\ forall x, x < b \/ b + n <= x -> mem s x = m0 x | Abort m => forall x, x < b \/ b + n <= x -> m x = m0 x end.
Proof.
  intros b n m0 l Hn.
  assert (G : forall l s, buf s = b -> size s = n -> 0 <= cursor s <= n -> (forall x, x < b \/ b + n <= x -> mem s x = m0 x) ->
    match run l s with Done _ s => 0 <= cursor s <= n /\ forall x, x < b \/ b + n <= x -> mem s x = m0 x | Abort m => forall x, x < b \/ b + n <= x -> m x = m0 x end).
  { assert (W2 : W = 2 * 2 ^ 63) by reflexivity. clear l. induction l as [|o l IH]; intros s Hb Hs Hc Hm; [split; assumption|]. cbn [run]. destruct o as [r| |]; cbn [step].
    - unfold fmt. destruct (vsnprintf (mem s) (buf s + cursor s) ((size s - cursor s) mod W) r) as [m k] eqn:E.
      assert (Hout : forall x, x < b \/ b + n <= x -> m x = m0 x).
      { intros x H. apply (f_equal fst) in E. cbn [fst] in E. rewrite <- E. rewrite vs_out; [apply Hm; exact H|apply Z.mod_pos_bound; reflexivity|]. rewrite Z.mod_small by lia. lia. }
      destruct (size s <=? (cursor s + k) mod W) eqn:C; [exact Hout|]. apply IH; cbn [buf size cursor mem]; try assumption. pose proof (Z.mod_pos_bound (cursor s + k) W ltac:(reflexivity)). lia.
    - unfold write. apply IH; cbn [buf size cursor mem]; try assumption. lia.
    - unfold clear. apply IH; cbn [buf size cursor mem]; try assumption. lia. }
  apply G; cbn [new buf size cursor mem]; auto; lia.
Qed.
Print Assumptions C119_bounds.
(** a formatting error is not reported: it takes back the last character written before it *)
Theorem C119_error_refuted : forall b n m0 t w, 0 <= n <= 2 ^ 63 -> 0 < len t -> len t <= int_max -> len t < n ->
  exists s, run [Fmt (Text t); Fmt (Fail w)] (new b n m0) = Done 0 s /\ cursor s = len t - 1 /\ text_at (mem s) b (cursor s) = removelast t.
Proof.
  intros b n m0 t w Hn H0 H1 H2. assert (W2 : W = 2 * 2 ^ 63) by reflexivity. assert (IM : int_max < 2 ^ 63) by reflexivity.
  assert (R : Rel b n m0 (new b n m0) (Abs [] [])).
  { unfold Rel, new. cbn [buf size cursor out mem pending written length]. repeat split; auto. intros i Hi. lia. }
  pose proof (step_rel b n m0 (Fmt (Text t)) _ _ Hn H1 R) as S1. cbn [spec_step pending app written] in S1. fold (len t) in S1. destruct (len t <? n) eqn:L; [|lia].
  cbn [run]. destruct (step (Fmt (Text t)) (new b n m0)) as [k s|m]; [|destruct S1]. destruct S1 as [Eb [En [Ec [_ [_ [Hm _]]]]]]. cbn [pending] in Ec, Hm.
  cbn [step]. unfold fmt. destruct (vsnprintf (mem s) (buf s + cursor s) ((size s - cursor s) mod W) (Fail w)) as [m k'] eqn:E.
  assert (K : k' = -1) by (apply (f_equal snd) in E; symmetry; exact E). subst k'. rewrite Z.mod_small by lia. destruct (size s <=? cursor s + -1) eqn:C; [lia|].
  eexists. split; [reflexivity|]. cbn [cursor mem]. split; [lia|]. destruct (exists_last (l := t)) as [t' [c ->]]; [intros ->; cbn in H0; lia|]. rewrite removelast_last.
  rewrite len_app in *. replace (cursor s + -1) with (len t') by (rewrite Ec; unfold len; cbn [length]; lia). apply text_at_ok. intros i Hi.
  apply (f_equal fst) in E. cbn [fst] in E. rewrite <- E. rewrite vs_out; [|apply Z.mod_pos_bound; reflexivity|left; rewrite Eb, Ec; unfold len; lia].
  rewrite Hm by (rewrite app_length; lia). apply app_nth1. exact Hi.
Qed.
Print Assumptions C119_error_refuted.
(** reading words that are separated by one blank or tab gives the words; *)
Theorem C119_read : forall ws w, is_word w -> Forall (fun p => is_word (fst p) /\ (snd p = 32 \/ snd p = 9)) ws ->
  words (spaced ws w) (map fst ws ++ [w]) /\ reads (S (length ws)) (spaced ws w) = Some (map fst ws ++ [w]) /\ reads (S (S (length ws))) (spaced ws w) = None.
Proof.
  intros ws w Hw H. split; [apply words_spaced; assumption|]. split; [apply reads_spaced; assumption|].
  revert w Hw. induction ws as [|[v c] ws IH]; intros w Hw.
  - cbn [length spaced reads]. unfold ifmt. rewrite <- (app_nil_r w). rewrite scan_word by auto. destruct Hw as [_ Hw]. rewrite to_blank_word by exact Hw. reflexivity.
  - inversion H as [|? ? [A B] H2]. subst. cbn [fst snd] in A, B. assert (Sc : space c) by (unfold space; lia).
    cbn [length spaced]. change (reads (S (S (S (length ws)))) (v ++ c :: spaced ws w)) with (match ifmt (v ++ c :: spaced ws w) with Some (x, l) => option_map (cons x) (reads (S (S (length ws))) l) | None => None end).
    unfold ifmt. rewrite scan_word by (eauto 6). rewrite to_blank_word by (apply A). cbn [to_blank]. assert (E : (c =? 32) || (c =? 9) = true) by lia. rewrite E. rewrite IH by assumption. reflexivity.
Qed.
Print Assumptions C119_read.
(** with two blanks between them a word is read twice, and a word after a newline is lost *)
Theorem C119_read_refuted : forall v w, is_word v -> is_word w ->
  (words (v ++ 32 :: 32 :: w) [v; w] /\ reads 3 (v ++ 32 :: 32 :: w) = Some [v; w; w]) /\
  (words (v ++ 10 :: w) [v; w] /\ reads 1 (v ++ 10 :: w) = Some [v] /\ reads 2 (v ++ 10 :: w) = None).
Proof.
  intros v w Hv Hw. assert (S32 : space 32) by (left; reflexivity). assert (S10 : space 10) by (right; lia). destruct (Hw) as [Nw Hw']. destruct (Hv) as [Nv Hv'].
  assert (Ew : ifmt w = Some (w, [])). { unfold ifmt. rewrite <- (app_nil_r w) at 1. rewrite scan_word by auto. rewrite <- (app_nil_r w) at 2. rewrite to_blank_word by exact Hw'. reflexivity. }
  split; [split|split; [|split]].
  - apply words_cons; [exact Hv|exact S32|]. apply words_space; [exact S32|]. apply words_last. exact Hw.
  - cbn [reads]. unfold ifmt at 1. rewrite scan_word by (eauto 6). rewrite to_blank_word by exact Hv'. cbn [to_blank]. change ((32 =? 32) || (32 =? 9)) with true. cbn iota.
    assert (E : ifmt (32 :: w) = Some (w, w)).
    { unfold ifmt, sscanf_s. cbn [skip to_blank]. change (is_space 32) with true. change ((32 =? 32) || (32 =? 9)) with true. cbn iota.
      change (match skip w with [] => None | l => Some (word l) end) with (sscanf_s w). rewrite <- (app_nil_r w) at 1. rewrite scan_word by auto. reflexivity. }
    rewrite E. cbn iota. rewrite Ew. reflexivity.
  - apply words_cons; [exact Hv|exact S10|]. apply words_last. exact Hw.
  - cbn [reads]. unfold ifmt. rewrite scan_word by (eauto 6). reflexivity.
  - cbn [reads]. unfold ifmt at 1. rewrite scan_word by (eauto 6). rewrite to_blank_word by exact Hv'. cbn [to_blank]. change ((10 =? 32) || (10 =? 9)) with false. cbn iota.
    rewrite <- (app_nil_r w). rewrite to_blank_word by exact Hw'. reflexivity.
Qed.
Print Assumptions C119_read_refuted.
Example ex_out : match run [Fmt (Text [97; 98]); Fmt (Text [99]); Write; Fmt (Text [100])] (new 10 4 (fun _ => 7)) with
  | Done _ s => out s = [97; 98; 99] /\ text_at (mem s) 9 6 = [7; 100; 0; 99; 0; 7] | _ => False end.
Proof. vm_compute. split; reflexivity. Qed.
Example ex_full : match run [Fmt (Text [97; 98]); Fmt (Text [99; 100])] (new 10 4 (fun _ => 7)) with Abort m => text_at m 9 6 = [7; 97; 98; 99; 0; 7] | _ => False end.
Proof. vm_compute. reflexivity. Qed.
Example ex_read : reads 3 [97; 98; 32; 99; 9; 100] = Some [[97; 98]; [99]; [100]].
Proof. reflexivity. Qed.
