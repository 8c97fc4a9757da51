From Coq Require Import Ascii String List Bool Arith ZArith Lia.
From Verif Require Import Config.Model Config.Spec Config.Proofs.
Import ListNotations.
Local Open Scope nat_scope.
(** white space: space, tabulators, line feed, form feed, carriage return *)
Theorem C111_space : forall c, is_space c = true <-> In c (map ascii_of_nat [32; 9; 10; 11; 12; 13]).
Proof. intros c. destruct c as [[] [] [] [] [] [] [] []]; vm_compute; split; intros H; try discriminate; try reflexivity; try tauto; repeat (destruct H as [H|H]; [try discriminate; try reflexivity|]); tauto. Qed.
Print Assumptions C111_space.
(** C111: the tabular reader gives the settings of the file in order; blank lines, comments and what follows the value are ignored *)
Theorem C111_tabular : forall ls last f, forallb ok_line ls = true -> ok_line last = true -> length (file ls last) + 2 <= f ->
  tabular f (file ls last) = Some (Pairs (settings (ls ++ [last]))).
Proof. intros ls last f H1 H2 Hf. apply (tabular_file ls last H1 H2 f [] eq_refl). assert (H := file_length ls last). lia. Qed.
Print Assumptions C111_tabular.
(** pairs are stored inside the array, whatever its first size *)
Theorem C111_room : forall max n, let s := add_pairs n (0, max) in snd (add_pair s) < snd (fst (add_pair s)).
Proof. intros max n s. assert (R := add_room s (add_pairs_room n (0, max) (Nat.le_0_l _))). destruct (add_pair s). apply R. Qed.
Print Assumptions C111_room.
(** a comment whose first word has more than 63 characters stops the reader *)
Theorem C111_comment_refuted : forall t ls last f, forallb (fun c => negb (is_space c)) t = true -> length t = 63 ->
  tabular (S f) (file (Comment [] t :: ls) last) = Some Overlong.
Proof.
  intros t ls last f Ht Hl. rewrite file_cons. cbn [line_text app tabular]. unfold rd_word. cbn [skip]. change (is_space hash) with false. cbn iota.
  assert (T : forall n (t : text) l, forallb (fun c => negb (is_space c)) t = true -> n < length t -> exists w c r, take n (t ++ l) = (w, c :: r) /\ is_space c = false).
  { clear. induction n as [|n IH]; intros [|c t] l H Hn; cbn [length] in Hn; try lia; cbn [forallb app] in *; apply andb_prop in H as [Hc H]; apply negb_true_iff in Hc.
    - exists [], c, (t ++ l). split; [reflexivity|exact Hc].
    - destruct (IH t l H ltac:(lia)) as [w [c' [r [E E']]]]. exists (c :: w), c', r. rewrite take_cons, Hc, E. split; [reflexivity|exact E']. }
  change (64 - 1) with (S 62). rewrite take_cons. change (is_space hash) with false. cbn iota.
  destruct (T 62 t (nlc :: file ls last) Ht ltac:(lia)) as [w [c [r [-> Hc]]]]. rewrite Hc. reflexivity.
Qed.
Print Assumptions C111_comment_refuted.
(** a key alone on its line takes the next word of the file as value: here the next key, and that setting is lost *)
Theorem C111_novalue_refuted : forall k k2 ws v f, word k = true -> length k <= 63 -> is_comment k = false -> word k2 = true -> length k2 <= 255 -> forallb blank ws = true -> ws <> [] -> no_nl v = true ->
  tabular (S (S f)) (k ++ nlc :: k2 ++ ws ++ v) = Some (Pairs [(k, k2)]).
Proof.
  intros k k2 ws v f Hk Lk Ck Hk2 Lk2 Hws Hne Hv. remember (S f) as f1 eqn:Ef1. cbn [tabular].
  assert (E1 := rd_word_ok 64 [] k (nlc :: k2 ++ ws ++ v) eq_refl Hk ltac:(lia) eq_refl). cbn [app] in E1. rewrite E1, Ck.
  assert (Ew : ends (ws ++ v)).
  { destruct ws as [|c ws]; [congruence|]. apply blank_spaces in Hws. unfold spaces in Hws. cbn [forallb] in Hws. apply andb_prop in Hws as [Hc _]. exact Hc. }
  assert (E2 := rd_word_ok 256 [nlc] k2 (ws ++ v) eq_refl Hk2 ltac:(lia) Ew). cbn [app] in E2. rewrite E2.
  assert (N : no_nl (ws ++ v) = true).
  { rewrite no_nl_app, Hv, andb_true_r. clear - Hws. unfold no_nl. induction ws as [|c ws IH]; [reflexivity|]. cbn [forallb] in *. apply andb_prop in Hws as [Hc H]. unfold blank in Hc. apply andb_prop in Hc as [_ ->]. apply IH, H. }
  rewrite (rd_nl_none _ N), Ef1, tabular_end by reflexivity. reflexivity.
Qed.
Print Assumptions C111_novalue_refuted.
(** each string is copied to a block one byte too small *)
Theorem C111_store_refuted : forall t, asked t < written t.
Proof. intros t. unfold asked, written. lia. Qed.
Print Assumptions C111_store_refuted.

(** C112: the outcome of parse_config, if no key of an entry occurs twice in the file *)
Theorem C112_done : forall es ps vars, NoDup (map key es) -> once es ps -> fst (parse_config es ps) = Done vars -> Forall2 (assigned ps) es vars.
Proof. intros es ps vars HN HO E. assert (H := parse_config_meaning es ps HN HO). rewrite E in H. exact H. Qed.
Print Assumptions C112_done.
Theorem C112_missing : forall es ps n, NoDup (map key es) -> once es ps -> fst (parse_config es ps) = Missing n -> n = length (filter (absent ps) es) /\ 0 < n.
Proof. intros es ps n HN HO E. assert (H := parse_config_meaning es ps HN HO). rewrite E in H. exact H. Qed.
Print Assumptions C112_missing.
Theorem C112_parse_fail : forall es ps k v, NoDup (map key es) -> once es ps -> fst (parse_config es ps) = ParseFail k v ->
  exists i e, nth_error ps i = Some (k, v) /\ In e es /\ key e = k /\ parse e i v = None.
Proof. intros es ps k v HN HO E. assert (H := parse_config_meaning es ps HN HO). rewrite E in H. exact H. Qed.
Print Assumptions C112_parse_fail.
Theorem C112_valid_fail : forall es ps k v, NoDup (map key es) -> once es ps -> fst (parse_config es ps) = ValidFail k v ->
  exists i e x, nth_error ps i = Some (k, v) /\ In e es /\ key e = k /\ parse e i v = Some x /\ valid e x = false.
Proof. intros es ps k v HN HO E. assert (H := parse_config_meaning es ps HN HO). rewrite E in H. exact H. Qed.
Print Assumptions C112_valid_fail.
(** a file with all entries and only good values is accepted *)
Theorem C112_complete : forall es ps, NoDup (map key es) -> once es ps -> filter (absent ps) es = [] ->
  (forall i k v e, nth_error ps i = Some (k, v) -> In e es -> key e = k -> exists x, parse e i v = Some x /\ valid e x = true) ->
  exists vars, fst (parse_config es ps) = Done vars.
Proof.
  intros es ps HN HO HA HG. assert (H := parse_config_meaning es ps HN HO). destruct (fst (parse_config es ps)) as [vars|k v|k v|n]; cbn [meaning] in H.
  - exists vars. reflexivity.
  - destruct H as [i [e [H1 [H2 [H3 H4]]]]]. destruct (HG i k v e H1 H2 H3) as [x [E _]]. congruence.
  - destruct H as [i [e [x [H1 [H2 [H3 [H4 H5]]]]]]]. destruct (HG i k v e H1 H2 H3) as [y [E E']]. congruence.
  - rewrite HA in H. cbn in H. lia.
Qed.
Print Assumptions C112_complete.
(** a key that occurs twice counts for two entries: the other entry is not in the file, or is but is not read, and nothing is reported *)
Theorem C112_twice_refuted : forall a b v v' w p q, a <> b -> (forall i t, p i t <> None) ->
  exists x, fst (parse_config [Entry a p (fun _ => true); Entry b q (fun _ => true)] [(a, v); (a, v')]) = Done [Some x; None] /\
            fst (parse_config [Entry a p (fun _ => true); Entry b q (fun _ => true)] [(a, v); (a, v'); (b, w)]) = Done [Some x; None].
Proof.
  intros a b v v' w p q Hab Hp. destruct (p 1 v') as [x|] eqn:E1; [|destruct (Hp 1 v' E1)]. destruct (p 0 v) as [y|] eqn:E0; [|destruct (Hp 0 v E0)].
  assert (eqt a a = true) as Ea by (destruct (eqt_spec a a); congruence).
  exists x. cbn [parse_config fst conf find key map length parse valid Nat.eqb upd finish]. rewrite Ea. cbn [parse]. rewrite E0. cbn [valid length Nat.eqb upd]. rewrite E1. cbn [valid]. split; reflexivity.
Qed.
Print Assumptions C112_twice_refuted.
(** the variable of a string entry is left with the address of a string that is freed *)
Theorem C112_string_refuted : forall es ps vars j k vd o, NoDup (map key es) -> once es ps -> fst (parse_config es ps) = Done vars ->
  nth_error es j = Some (Entry k parse_str vd) -> nth_error vars j = Some o -> exists i, o = Some (VPtr i) /\ In i (snd (parse_config es ps)).
Proof.
  intros es ps vars j k vd o HN HO E He Hv. assert (H := C112_done es ps vars HN HO E).
  assert (A : assigned ps (Entry k parse_str vd) o).
  { clear - H He Hv. revert j He Hv. induction H as [|e x es vars HA _ IH]; intros [|j] He Hv; try discriminate; cbn in He, Hv.
    - injection He as ->. injection Hv as ->. exact HA.
    - eapply IH; eassumption. }
  destruct A as [i [v [x [H1 [H2 [_ ->]]]]]]. cbn [parse parse_str] in H2. injection H2 as <-. exists i. split; [reflexivity|].
  cbn [parse_config snd]. apply in_seq. assert (i < length ps) by (apply nth_error_Some; congruence). lia.
Qed.
Print Assumptions C112_string_refuted.

Definition tx := list_ascii_of_string.
Definition lines : list line := [Comment [] (tx " sizes"); Blank (tx "  "); Setting [] (tx "Width") (tx "  ") (tx "12") (tx " columns"); Comment (tx "  ") []; Setting (tx " ") (tx "Name") (tx " ") (tx "x#y") []].
Definition last_line : line := Setting [] (tx "Depth") (tx " ") (tx "7") [].
Example ex_ok : forallb ok_line lines = true /\ ok_line last_line = true. Proof. split; reflexivity. Qed.
Example ex_read : tabular 99 (file lines last_line) = Some (Pairs [(tx "Width", tx "12"); (tx "Name", tx "x#y"); (tx "Depth", tx "7")]). Proof. vm_compute. reflexivity. Qed.
Definition num (i : nat) (t : text) : option val := match t with [c] => Some (VNum (Z.of_nat (nat_of_ascii c - 48))) | _ => None end.
Definition es : list entry := [Entry (tx "Depth") num (fun x => match x with VNum z => (z <? 8)%Z | _ => false end); Entry (tx "Name") parse_str (fun _ => true)].
Example ex_done : fst (parse_config es [(tx "Width", tx "12"); (tx "Name", tx "x#y"); (tx "Depth", tx "7")]) = Done [Some (VNum 7); Some (VPtr 1)]. Proof. vm_compute. reflexivity. Qed.
Example ex_valid : fst (parse_config es [(tx "Depth", tx "9")]) = ValidFail (tx "Depth") (tx "9"). Proof. vm_compute. reflexivity. Qed.
Example ex_missing : fst (parse_config es [(tx "Depth", tx "3")]) = Missing 1. Proof. vm_compute. reflexivity. Qed.
Example ex_room : add_pairs 5 (0, 0) = (5, 8) /\ add_pairs 4 (0, 3) = (4, 6). Proof. split; reflexivity. Qed.
