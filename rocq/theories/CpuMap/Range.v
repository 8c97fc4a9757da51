From Coq Require Import Ascii String ZArith List Bool Arith Lia ZifyBool.
From Verif Require Import CpuMap.Model CpuMap.Spec.
Import ListNotations.
Local Open Scope Z_scope.
Lemma digit_some c : is_digit c -> digit c = Some (Z.of_nat (nat_of_ascii c) - 48).
Proof. unfold is_digit, digit. intros H. destruct ((48 <=? _) && (_ <=? 57)) eqn:E; [reflexivity|lia]. Qed.
Lemma digit_inv c d : digit c = Some d -> is_digit c /\ d = Z.of_nat (nat_of_ascii c) - 48.
Proof. unfold is_digit, digit. destruct ((48 <=? _) && (_ <=? 57)) eqn:E; [|discriminate]. intros [= <-]. split; [lia|reflexivity]. Qed.
Definition stop (t : text) : Prop := match t with [] => True | c :: _ => digit c = None end.
Lemma num_app u : forall t a, Forall is_digit u -> stop t -> num (u ++ t) a = (fold_left (fun a c => 10 * a + (Z.of_nat (nat_of_ascii c) - 48)) u a, t).
Proof.
  induction u as [|c u IH]; intros t a F S0.
  - destruct t as [|c t]; [reflexivity|]. cbn [app num fold_left]. cbn in S0. rewrite S0. reflexivity.
  - inversion F as [|? ? F1 F2]; subst. cbn [app num fold_left]. rewrite (digit_some c F1). apply IH; assumption.
Qed.
Lemma scan_app u t : number u -> stop t -> scan_u (u ++ t) = Some (val u, t).
Proof.
  intros [N F] S0. destruct u as [|c u]; [congruence|]. cbn [app scan_u]. assert (F' := F). inversion F' as [|? ? F1 F2]; subst. rewrite (digit_some c F1).
  change (c :: u ++ t) with ((c :: u) ++ t). rewrite num_app by assumption. reflexivity.
Qed.
Lemma num_inv t : forall a v r, num t a = (v, r) -> exists u, t = u ++ r /\ Forall is_digit u /\ stop r /\ v = fold_left (fun a c => 10 * a + (Z.of_nat (nat_of_ascii c) - 48)) u a.
Proof.
  induction t as [|c t IH]; intros a v r H; cbn [num] in H.
  - injection H as <- <-. exists []. cbn. auto.
  - destruct (digit c) as [d|] eqn:D.
    + destruct (IH _ _ _ H) as (u & -> & F & S0 & ->). destruct (digit_inv _ _ D) as [D1 ->]. exists (c :: u). cbn. auto.
    + injection H as <- <-. exists []. cbn. auto.
Qed.
Lemma scan_inv t v r : scan_u t = Some (v, r) -> exists u, t = u ++ r /\ number u /\ stop r /\ v = val u.
Proof.
  destruct t as [|c t]; [discriminate|]. cbn [scan_u]. destruct (digit c) as [d|] eqn:D; [|discriminate]. intros H.
  assert (H' : num (c :: t) 0 = (v, r)) by congruence. destruct (num_inv _ _ _ _ H') as (u & E & F & S0 & V). exists u. split; [exact E|]. split; [|auto]. split; [|exact F].
  intros ->. cbn in E. subst r. cbn in S0. congruence.
Qed.
(** a range at the start of a text that goes on with a comma or ends *)
Definition sepd (t : text) : Prop := match t with [] => True | c :: _ => c = ","%char end.
Lemma sepd_stop t : sepd t -> stop t. Proof. destruct t; cbn; [auto|]. intros ->. reflexivity. Qed.
Definition numbers (r : range) : Prop := number (lo r) /\ match hi r with Some h => number h | None => True end.
Lemma wf_numbers r : wf r -> numbers r. Proof. intros (N & _ & H). split; [exact N|]. destruct (hi r); [apply H|exact Logic.I]. Qed.
Lemma scan_range r t : numbers r -> sepd t -> sscanf (render r ++ t) = match hi r with Some h => Two (val (lo r)) (val h) t | None => One (val (lo r)) t end.
Proof.
  intros (N & H) S0. destruct r as [l h]; cbn [lo hi render] in *. unfold render. cbn [lo hi].
  assert (U : sscanf ((l ++ match h with Some h0 => "-"%char :: h0 | None => [] end) ++ t) =
    match scan_u ((l ++ match h with Some h0 => "-"%char :: h0 | None => [] end) ++ t) with
         | None => Zero
         | Some (a, r) => match r with
                          | c :: r' => if Ascii.eqb c "-" then match scan_u r' with Some (b, r'') => Two a b r'' | None => One a r end else One a r
                          | [] => One a r
                          end
         end). { destruct l; [destruct N; congruence|reflexivity]. }
  rewrite U, <- app_assoc. destruct h as [h|].
  - cbn [app]. rewrite scan_app by (try assumption; reflexivity). rewrite Ascii.eqb_refl, scan_app by (try assumption; apply sepd_stop, S0). reflexivity.
  - cbn [app]. rewrite scan_app by (try assumption; apply sepd_stop, S0). destruct t as [|c t]; [reflexivity|]. cbn in S0. subst c. reflexivity.
Qed.
Lemma members_iter f r t : wf r -> sepd t -> iter (S f) (render r ++ t) = match t with [] => (members r, Done) | _ => let (l', st) := iter f t in (members r ++ l', st) end.
Proof.
  intros W S0. cbn [iter]. rewrite scan_range by (try assumption; apply wf_numbers, W). destruct W as (N & B & H). destruct r as [l h]; cbn [lo hi members] in *. unfold members; cbn [lo hi]. destruct h as [h|].
  - unfold big. destruct (_ || _) eqn:E1; [lia|]. destruct (val h <? val l) eqn:E2; [lia|]. reflexivity.
  - unfold big. destruct (2 ^ 31 - 1 <=? val l) eqn:E1; [lia|]. reflexivity.
Qed.
Lemma render_pos r : wf r -> (1 <= length (render r))%nat.
Proof. intros ((N & _) & _). unfold render. rewrite app_length. destruct (lo r); [congruence|cbn; lia]. Qed.
Lemma list_text_cons r s rs : list_text (r :: s :: rs) = render r ++ ","%char :: list_text (s :: rs). Proof. reflexivity. Qed.
Lemma iter_list rs : forall f, rs <> [] -> Forall wf rs -> (length (list_text rs) < f)%nat -> iter f (list_text rs) = (elements rs, Done).
Proof.
  induction rs as [|r [|s rs] IH]; intros f H W L; [congruence| |].
  - inversion W; subst. destruct f; [lia|]. change (list_text [r]) with (render r). rewrite <- (app_nil_r (render r)), members_iter by (try assumption; exact Logic.I).
    unfold elements. cbn [map concat]. rewrite app_nil_r. reflexivity.
  - inversion W as [|? ? W1 W2]; subst. rewrite list_text_cons in *. rewrite app_length in L. cbn [length] in L. assert (P := render_pos r W1).
    destruct f as [|[|f]]; [lia|lia|]. rewrite members_iter by (try assumption; reflexivity). cbn [iter]. cbn [sscanf scan_u]. change (digit ",") with (@None Z). cbn iota.
    rewrite Ascii.eqb_refl, IH by (try assumption; try discriminate; lia). reflexivity.
Qed.

(** the width *)
Lemma cut_none d t : ~ In d t -> cut d t = None.
Proof.
  induction t as [|c t IH]; intros H; [reflexivity|]. cbn [cut]. destruct (Ascii.eqb_spec c d) as [->|N]; [destruct H; left; reflexivity|].
  rewrite IH; [reflexivity|]. intros I0. apply H. right. exact I0.
Qed.
Lemma cut_first d u t : ~ In d u -> cut d (u ++ d :: t) = Some (u, t).
Proof.
  induction u as [|c u IH]; intros H; cbn [app cut]; [rewrite Ascii.eqb_refl; reflexivity|].
  destruct (Ascii.eqb_spec c d) as [->|N]; [destruct H; left; reflexivity|]. rewrite IH; [reflexivity|]. intros I0. apply H. right. exact I0.
Qed.
Lemma digits_no u d : Forall is_digit u -> digit d = None -> ~ In d u.
Proof. intros F D I0. rewrite Forall_forall in F. apply F, digit_some in I0. congruence. Qed.
Lemma render_no_comma r : wf r -> ~ In ","%char (render r).
Proof.
  intros ((_ & F) & _ & H) I0. unfold render in I0. apply in_app_or in I0 as [I0|I0]; [revert I0; apply digits_no; [exact F|reflexivity]|].
  destruct (hi r) as [h|]; [|destruct I0]. destruct H as [[_ F2] _]. destruct I0 as [I0|I0]; [discriminate|]. revert I0. apply digits_no; [exact F2|reflexivity].
Qed.
Lemma fold_nonneg u : forall a, 0 <= a -> Forall is_digit u -> 0 <= fold_left (fun a c => 10 * a + (Z.of_nat (nat_of_ascii c) - 48)) u a.
Proof. induction u as [|c u IH]; intros a A F; [exact A|]. inversion F as [|? ? F1 F2]; subst. cbn [fold_left]. apply IH; [unfold is_digit in F1; lia|exact F2]. Qed.
Lemma val_nonneg u : number u -> 0 <= val u. Proof. intros [_ F]. apply fold_nonneg; [lia|exact F]. Qed.
Lemma read_ok u : number u -> read_value u = Some (val u mod 2 ^ 32).
Proof. intros N. unfold read_value. rewrite <- (app_nil_r u) at 1. rewrite scan_app by (try assumption; exact Logic.I). reflexivity. Qed.
Lemma zseq_len a b : a <= b -> Z.of_nat (length (zseq a b)) = b - a + 1.
Proof. intros H. unfold zseq. rewrite map_length, seq_length. lia. Qed.
Lemma width_one f r : wf r -> width (S f) (render r) = Some (Z.of_nat (length (members r)) mod 2 ^ 32).
Proof.
  intros W. cbn [width]. rewrite cut_none by (apply render_no_comma, W). destruct W as (N & B & H). destruct r as [l [h|]]; unfold render, members; cbn [lo hi] in *.
  - destruct H as [N2 H]. rewrite cut_first by (apply digits_no; [apply N|reflexivity]). rewrite !read_ok by assumption. rewrite zseq_len by lia.
    assert (0 <= val l) by (apply val_nonneg, N). rewrite !(Z.mod_small (val _)) by lia. reflexivity.
  - rewrite app_nil_r, cut_none by (apply digits_no; [apply N|reflexivity]). rewrite read_ok by assumption. reflexivity.
Qed.
Lemma width_list rs : forall f, rs <> [] -> Forall wf rs -> (length (list_text rs) < f)%nat -> width f (list_text rs) = Some (Z.of_nat (length (elements rs)) mod 2 ^ 32).
Proof.
  induction rs as [|r [|s rs] IH]; intros f H W L; [congruence| |].
  - inversion W; subst. destruct f; [lia|]. change (list_text [r]) with (render r). rewrite width_one by assumption. unfold elements. cbn [map concat]. rewrite app_nil_r. reflexivity.
  - inversion W as [|? ? W1 W2]; subst. rewrite list_text_cons in *. rewrite app_length in L. cbn [length] in L. assert (P := render_pos r W1).
    destruct f as [|[|f]]; [lia|lia|]. remember (S f) as g. cbn [width]. rewrite cut_first by (apply render_no_comma, W1). subst g. rewrite width_one by assumption.
    rewrite IH by (try assumption; try discriminate; lia). f_equal. unfold elements. cbn [map concat]. rewrite (app_length (members r)), Nat2Z.inj_add. rewrite <- Z.add_mod by lia. reflexivity.
Qed.

(** every text: the generator needs no more steps than characters *)
Lemma scan_len t v r : scan_u t = Some (v, r) -> (length r < length t)%nat.
Proof. intros H. destruct (scan_inv _ _ _ H) as (u & -> & [N _] & _). rewrite app_length. destruct u; [congruence|cbn; lia]. Qed.
Lemma sscanf_len t : match sscanf t with One _ r | Two _ _ r => (length r < length t)%nat | _ => True end.
Proof.
  destruct t as [|c t]; [exact Logic.I|]. cbn [sscanf]. destruct (scan_u (c :: t)) as [[a r]|] eqn:E; [|exact Logic.I]. apply scan_len in E.
  destruct r as [|x r]; [exact E|]. destruct (Ascii.eqb x "-"); [|exact E]. destruct (scan_u r) as [[b r']|] eqn:E2; [|exact E]. apply scan_len in E2. cbn [length] in *. lia.
Qed.
Lemma iter_fuel f : forall t, (length t < f)%nat -> snd (iter f t) <> Fuel.
Proof.
  induction f as [|f IH]; intros t L; [lia|]. cbn [iter]. assert (Q := sscanf_len t). destruct (sscanf t) as [| |a r|a b r]; cbn [snd]; try discriminate.
  - destruct t as [|c t]; [discriminate|]. destruct (Ascii.eqb c ","); [apply IH; cbn [length] in L; lia|discriminate].
  - destruct (big a); [discriminate|]. destruct r as [|c r]; [discriminate|]. assert (H := IH (c :: r) ltac:(lia)). destruct (iter f (c :: r)). exact H.
  - destruct (big a || big b); [discriminate|]. destruct (b <? a); [discriminate|]. destruct r as [|c r]; [discriminate|]. assert (H := IH (c :: r) ltac:(lia)). destruct (iter f (c :: r)). exact H.
Qed.

(** a text without errors is a list of ranges, perhaps with more commas *)
Lemma split_no u t : ~ In ","%char u -> split (u ++ ","%char :: t) = u :: split t.
Proof.
  induction u as [|c u IH]; intros H; cbn [app split]; [rewrite Ascii.eqb_refl; reflexivity|].
  destruct (Ascii.eqb_spec c ",") as [->|N]; [destruct H; left; reflexivity|]. rewrite IH; [reflexivity|]. intros I0. apply H. right. exact I0.
Qed.
Lemma split_one u : ~ In ","%char u -> split u = [u].
Proof.
  induction u as [|c u IH]; intros H; [reflexivity|]. cbn [split]. destruct (Ascii.eqb_spec c ",") as [->|N]; [destruct H; left; reflexivity|].
  rewrite IH; [reflexivity|]. intros I0. apply H. right. exact I0.
Qed.
Lemma sscanf_inv t : match sscanf t with
  | One a r => exists u, t = u ++ r /\ number u /\ stop r /\ a = val u
  | Two a b r => exists u v, t = u ++ "-"%char :: v ++ r /\ number u /\ number v /\ stop r /\ a = val u /\ b = val v
  | Zero => scan_u t = None
  | Eof => t = []
  end.
Proof.
  destruct t as [|c t]; [reflexivity|]. cbn [sscanf]. destruct (scan_u (c :: t)) as [[a r]|] eqn:E; [|reflexivity].
  destruct (scan_inv _ _ _ E) as (u & E1 & N & S0 & V). destruct r as [|x r]; [exists u; auto|]. destruct (Ascii.eqb_spec x "-") as [->|D]; [|exists u; auto].
  destruct (scan_u r) as [[b r']|] eqn:E2; [|exists u; auto]. destruct (scan_inv _ _ _ E2) as (v & -> & N2 & S2 & V2). exists u, v. auto 8.
Qed.
Lemma iter_next f c r l : digit c = None -> iter (S f) (c :: r) = (l, Done) -> c = ","%char /\ iter f r = (l, Done).
Proof.
  intros D H. cbn [iter sscanf scan_u] in H. rewrite D in H. destruct (Ascii.eqb_spec c ","); [auto|discriminate].
Qed.
Lemma after_inv f r l m : stop r -> match r with [] => (m, Done) | _ :: _ => let (l', st) := iter f r in (m ++ l', st) end = (l, Done) ->
  (r = [] /\ l = m) \/ exists r' l' g, r = ","%char :: r' /\ f = S g /\ iter g r' = (l', Done) /\ l = m ++ l'.
Proof.
  intros S0 H. destruct r as [|c r]; [left; split; congruence|right]. destruct (iter f (c :: r)) as [l' st] eqn:E. injection H as <- ->.
  destruct f as [|g]; [discriminate|]. destruct (iter_next g c r l' S0 E) as [-> E']. exists r, l', g. auto.
Qed.
Lemma iter_sound f : forall t l, iter f t = (l, Done) -> exists rs, Forall wf rs /\ map render rs = filter nonempty (split t) /\ l = elements rs.
Proof.
  induction f as [f IH] using lt_wf_ind. intros t l H. destruct f as [|f]; [discriminate|]. cbn [iter] in H. assert (Q := sscanf_inv t). destruct (sscanf t) as [| |a r|a b r].
  - discriminate.
  - destruct t as [|c t]; [discriminate|]. destruct (Ascii.eqb c ",") eqn:E; [|discriminate]. destruct (IH f ltac:(lia) t l H) as (rs & W & M & L). exists rs. cbn [split]. rewrite E. cbn [filter nonempty]. auto.
  - destruct Q as (u & -> & N & S0 & ->). unfold big in H. destruct (2 ^ 31 - 1 <=? val u) eqn:B; [discriminate|]. apply after_inv in H; [|exact S0].
    assert (W : wf (R u None)) by (split; [exact N|]; cbn [lo hi]; split; [lia|exact Logic.I]). assert (C : ~ In ","%char u) by (apply digits_no; [apply N|reflexivity]).
    assert (Ne : nonempty u = true) by (destruct u; [destruct N; congruence|reflexivity]).
    destruct H as [[-> ->]|(r' & l' & g & -> & -> & H & ->)].
    + exists [R u None]. rewrite app_nil_r, split_one by exact C. cbn [filter map]. rewrite Ne. unfold render; cbn [lo hi]. rewrite app_nil_r. auto.
    + destruct (IH g ltac:(lia) r' l' H) as (rs & W' & M & ->). exists (R u None :: rs). rewrite split_no by exact C. cbn [filter map]. rewrite Ne, M. unfold render; cbn [lo hi]. rewrite app_nil_r. auto.
  - destruct Q as (u & v & -> & N & N2 & S0 & -> & ->). unfold big in H. destruct (_ || _) eqn:B; [discriminate|]. destruct (val v <? val u) eqn:O; [discriminate|]. apply after_inv in H; [|exact S0].
    assert (W : wf (R u (Some v))) by (split; [exact N|]; cbn [lo hi]; repeat split; try lia; try apply N2).
    assert (C : ~ In ","%char (u ++ "-"%char :: v)) by (apply (render_no_comma (R u (Some v)) W)).
    assert (Ne : nonempty (u ++ "-"%char :: v) = true) by (destruct u; reflexivity).
    assert (As : forall r, u ++ "-"%char :: v ++ r = (u ++ "-"%char :: v) ++ r) by (intros; rewrite <- app_assoc; reflexivity). rewrite As.
    destruct H as [[-> ->]|(r' & l' & g & -> & -> & H & ->)].
    + exists [R u (Some v)]. rewrite app_nil_r, split_one by exact C. cbn [filter map]. rewrite Ne. unfold elements, members. cbn [map concat lo hi]. rewrite app_nil_r. auto.
    + destruct (IH g ltac:(lia) r' l' H) as (rs & W' & M & ->). exists (R u (Some v) :: rs). rewrite split_no by exact C. cbn [filter map]. rewrite Ne, M. auto.
Qed.

(** a range whose end is before its start *)
Lemma iter_bad rs l h : Forall wf rs -> number l -> number h -> (val h < val l < 2 ^ 31 - 1)%Z -> forall f, (length (list_text (rs ++ [R l (Some h)])) < f)%nat ->
  iter f (list_text (rs ++ [R l (Some h)])) = (elements rs, Exit).
Proof.
  intros W Nl Nh V. induction rs as [|r rs IH]; intros f L.
  - destruct f; [lia|]. cbn [app]. change (list_text [R l (Some h)]) with (render (R l (Some h))). rewrite <- (app_nil_r (render _)). cbn [iter]. rewrite scan_range by (try exact Logic.I; split; assumption).
    cbn [lo hi]. unfold big. destruct (_ || _) eqn:B; [lia|]. destruct (val h <? val l) eqn:O; [reflexivity|lia].
  - inversion W as [|? ? W1 W2]; subst. assert (J : list_text ((r :: rs) ++ [R l (Some h)]) = render r ++ ","%char :: list_text (rs ++ [R l (Some h)])) by (destruct rs; reflexivity).
    rewrite J in *. rewrite app_length in L. cbn [length] in L. assert (P := render_pos r W1).
    destruct f as [|[|f]]; [lia|lia|]. rewrite members_iter by (try assumption; reflexivity). cbn [iter]. cbn [sscanf scan_u]. change (digit ",") with (@None Z). cbn iota.
    rewrite Ascii.eqb_refl, IH by (try assumption; lia). reflexivity.
Qed.
