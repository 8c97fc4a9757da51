From Coq Require Import ZArith Bool Ascii String List Lia ZifyBool.
From Verif Require Import IntConst.Model IntConst.Spec.
Import ListNotations.
Open Scope Z_scope.

(* ---- characters ---- *)

Definition plain (c : ascii) : bool :=
  negb (isL c) && negb (isU c) && negb (isP c) && negb (isZ c) && negb (isH c) && negb (isN c).

Ltac digits_cases d :=
  let H := fresh in
  assert (H : d = 0 \/ d = 1 \/ d = 2 \/ d = 3 \/ d = 4 \/ d = 5 \/ d = 6 \/ d = 7 \/ d = 8 \/ d = 9
          \/ d = 10 \/ d = 11 \/ d = 12 \/ d = 13 \/ d = 14 \/ d = 15) by lia;
  repeat (destruct H as [H|H]); subst d.

Lemma stands_all c d : stands c d ->
  digit c = d /\ plain c = true /\ checkX c = false /\ (d < 10 -> checkB c = false /\ isdigit c = true /\ code c = 48 + d)
  /\ (c = "0"%char <-> d = 0) /\ (c = "1"%char <-> d = 1) /\ c <> nul.
Proof.
  intros (B & H). digits_cases d; destruct H as [H|H]; cbn in H; injection H as <-;
    (split; [reflexivity|]); (split; [reflexivity|]); (split; [reflexivity|]);
    (split; [intros L; first [exfalso; lia | split; [|split]; reflexivity]|]);
    (split; [split; intros; try discriminate; try lia; reflexivity|]);
    (split; [split; intros; try discriminate; try lia; reflexivity|]); discriminate.
Qed.

Lemma stands_digit c d : stands c d -> digit c = d.
Proof. intros H. apply (stands_all c d H). Qed.

Lemma stands_plain c d : stands c d -> plain c = true.
Proof. intros H. apply (stands_all c d H). Qed.

(* ---- denotes ---- *)

Lemma den_stands b ds n : denotes b ds n -> Forall (fun c => exists d, stands c d /\ d < b) ds.
Proof.
  induction 1; [constructor|]. apply Forall_app. split; auto. constructor; [|constructor]. eauto.
Qed.

Lemma den_range b ds n : 0 < b -> denotes b ds n -> 0 <= n < b ^ Z.of_nat (List.length ds).
Proof.
  intros Hb. induction 1; [cbn; lia|].
  rewrite app_length. cbn [List.length]. rewrite Nat2Z.inj_add, Z.pow_add_r by lia.
  change (Z.of_nat 1) with 1. rewrite Z.pow_1_r. destruct H0. nia.
Qed.

Lemma den_nil_inv b n : denotes b [] n -> n = 0.
Proof. intros H. inversion H; auto. destruct ds; discriminate. Qed.

Lemma den_snoc_inv b ds c n : denotes b (ds ++ [c]) n ->
  exists m d, denotes b ds m /\ stands c d /\ d < b /\ n = m * b + d.
Proof.
  intros H. inversion H.
  - destruct ds; discriminate.
  - apply app_inj_tail in H0 as (<- & <-). eauto 10.
Qed.

Lemma den_split b xs ys n : denotes b (xs ++ ys) n ->
  exists m k, denotes b xs m /\ denotes b ys k /\ n = m * b ^ Z.of_nat (List.length ys) + k.
Proof.
  revert n. induction ys as [|c ys IH] using rev_ind; intros n H.
  - rewrite app_nil_r in H. exists n, 0. repeat split; auto; [constructor|cbn; lia].
  - rewrite app_assoc in H. apply den_snoc_inv in H as (m & d & H & S & L & ->).
    apply IH in H as (m' & k & H1 & H2 & ->). exists m', (k * b + d).
    repeat split; auto. { now constructor. }
    rewrite app_length. cbn [List.length]. rewrite Nat2Z.inj_add, Z.pow_add_r by lia.
    change (Z.of_nat 1) with 1. rewrite Z.pow_1_r. lia.
Qed.

Lemma den_one b c n : denotes b [c] n -> stands c n /\ n < b.
Proof.
  intros H. apply (den_snoc_inv b [] c) in H as (m & d & H & S & L & ->).
  apply den_nil_inv in H. subst. rewrite Z.mul_0_l, Z.add_0_l. auto.
Qed.

Lemma den_cons b c ds n : denotes b (c :: ds) n ->
  exists d k, stands c d /\ d < b /\ denotes b ds k /\ n = d * b ^ Z.of_nat (List.length ds) + k.
Proof.
  intros H. apply (den_split b [c] ds) in H as (m & k & H1 & H2 & ->).
  apply den_one in H1 as (S & L). eauto 10.
Qed.

Lemma den_app b xs ys m k : denotes b xs m -> denotes b ys k ->
  denotes b (xs ++ ys) (m * b ^ Z.of_nat (List.length ys) + k).
Proof.
  intros H. revert k. induction ys as [|c ys IH] using rev_ind; intros k H1.
  - apply den_nil_inv in H1. subst. rewrite app_nil_r. cbn. now replace (m * 1 + 0) with m by lia.
  - apply den_snoc_inv in H1 as (k' & d & H1 & S & L & ->).
    rewrite app_assoc, app_length. cbn [List.length]. rewrite Nat2Z.inj_add, Z.pow_add_r by lia.
    change (Z.of_nat 1) with 1. rewrite Z.pow_1_r.
    replace (m * (b ^ Z.of_nat (List.length ys) * b) + (k' * b + d))
      with ((m * b ^ Z.of_nat (List.length ys) + k') * b + d) by lia.
    constructor; auto.
Qed.

Lemma den_fun b ds n m : denotes b ds n -> denotes b ds m -> n = m.
Proof.
  intros H. revert m. induction H; intros m H'.
  - apply den_nil_inv in H'. auto.
  - apply den_snoc_inv in H' as (k & d' & H' & S & L & ->).
    apply IHdenotes in H'. apply stands_digit in S, H0. subst. reflexivity.
Qed.

(* ---- scanning ---- *)

Lemma scan_app b ds n rest acc : denotes b ds n ->
  scan_digits b (ds ++ rest) acc =
  scan_digits b rest (match ds with
                      | [] => acc
                      | _ => Some (match acc with None => 0 | Some a => a end
                                     * b ^ Z.of_nat (List.length ds) + n)
                      end).
Proof.
  intros H. revert rest. induction H; intros rest; [reflexivity|].
  rewrite <- app_assoc. rewrite IHdenotes. cbn [app scan_digits].
  rewrite (stands_digit _ _ H0). destruct (Z.ltb_spec d b); [|lia].
  destruct (ds ++ [c]) eqn:E; [destruct ds; discriminate|]. rewrite <- E. f_equal. f_equal.
  rewrite app_length. cbn [List.length]. rewrite Nat2Z.inj_add, Z.pow_add_r by lia.
  change (Z.of_nat 1) with 1. rewrite Z.pow_1_r.
  destruct ds; [|destruct acc; ring].
  apply den_nil_inv in H; subst. cbn [List.length]. change (Z.of_nat 0) with 0. rewrite Z.pow_0_r.
  destruct acc; lia.
Qed.

(* the scan stops at the head of the rest *)
Definition stop (rest : chars) : Prop := rest = [] \/ exists c r, rest = c :: r /\ digit c = 99.

Lemma scan_stop b rest acc : b <= 16 -> stop rest -> scan_digits b rest acc = acc.
Proof.
  intros Hb [->|(c & r & -> & E)]; [reflexivity|]. cbn [scan_digits]. rewrite E.
  destruct (Z.ltb_spec 99 b); [lia|reflexivity].
Qed.

Definition sat (n : Z) : Z := Z.min n ULONG_MAX.

Lemma scan_num b ds n rest : b <= 16 -> denotes b ds n -> ds <> [] -> stop rest ->
  scan_digits b (ds ++ rest) None = Some n.
Proof.
  intros Hb H N S. rewrite (scan_app b ds n) by auto. rewrite scan_stop by auto.
  destruct ds; [congruence|]. f_equal.
Qed.

Lemma scanf_plain b ds n rest : b = 8 \/ b = 10 -> denotes b ds n -> ds <> [] -> stop rest ->
  scanf b (ds ++ rest) = Some (sat n).
Proof.
  intros Hb H N S. unfold scanf. replace (b =? 16) with false by lia. cbn [andb].
  rewrite (scan_num b ds n) by (auto; lia). reflexivity.
Qed.

Lemma scanf_hex x ds n rest : checkX x = true -> denotes 16 ds n -> ds <> [] -> stop rest ->
  scanf 16 ("0"%char :: x :: ds ++ rest) = Some (sat n).
Proof.
  intros Hx H N S. unfold scanf. cbn [at_ nth Z.eqb Pos.eqb andb eqc]. unfold at_. cbn [nth]. rewrite Hx.
  change (eqc "0" "0") with true. cbn [andb skipn].
  rewrite (scan_num 16 ds n) by (auto; lia). reflexivity.
Qed.

(* ---- the suffix does not depend on the body ---- *)

Lemma plain_all c : plain c = true ->
  isL c = false /\ isU c = false /\ isP c = false /\ isZ c = false /\ isH c = false /\ isN c = false.
Proof.
  unfold plain. destruct (isL c), (isU c), (isP c), (isZ c), (isH c), (isN c); cbn; intros; try discriminate.
  repeat split.
Qed.

Lemma flo_app (body : chars) (p : ascii -> bool) suf :
  Forall (fun c => plain c = true) body -> (forall c, plain c = true -> p c = false) ->
  find_last_of p (body ++ suf) = option_map (fun i => (List.length body + i)%nat) (find_last_of p suf).
Proof.
  intros Pb Hp. induction Pb as [|c l Hc _ IH]; cbn [app find_last_of List.length].
  - destruct (find_last_of p suf); reflexivity.
  - rewrite IH. destruct (find_last_of p suf); cbn; [reflexivity|]. now rewrite Hp.
Qed.

Lemma rf_app (body : chars) c suf :
  Forall (fun c => plain c = true) body -> plain c = false ->
  rfind2 c (body ++ suf) = option_map (fun i => (List.length body + i)%nat) (rfind2 c suf).
Proof.
  intros Pb Hp. induction Pb as [|a l Hc _ IH]; cbn [app rfind2 List.length].
  - destruct (rfind2 c suf); reflexivity.
  - rewrite IH. destruct (rfind2 c suf); cbn; [reflexivity|].
    unfold eqc. destruct (Ascii.eqb_spec a c); [subst; congruence|reflexivity].
Qed.

Section Body.
  Variable body : chars.
  Hypothesis Pb : Forall (fun c => plain c = true) body.
  Hypothesis Nb : body <> [].

  Lemma flo_body (p : ascii -> bool) suf :
    (forall c, plain c = true -> p c = false) ->
    find_last_of p (body ++ suf) = option_map (fun i => (List.length body + i)%nat) (find_last_of p suf).
  Proof. intros. now apply flo_app. Qed.

  Lemma rf_body c suf : plain c = false ->
    rfind2 c (body ++ suf) = option_map (fun i => (List.length body + i)%nat) (rfind2 c suf).
  Proof. intros. now apply rf_app. Qed.

  Lemma at_body suf k : at_ (body ++ suf) (List.length body + k) = at_ suf k.
  Proof. unfold at_. rewrite app_nth2 by lia. f_equal. lia. Qed.

  Lemma erase_body suf k : erase (body ++ suf) (List.length body + k) = body ++ erase suf k.
  Proof. unfold erase. now rewrite firstn_app_2. Qed.

  Lemma skipn_body suf k : skipn (List.length body + k) (body ++ suf) = skipn k suf.
  Proof. rewrite skipn_app. rewrite skipn_all2 by lia. cbn. f_equal. lia. Qed.

  Lemma erase_n_body suf k n : erase_n (body ++ suf) (List.length body + k) n = body ++ erase_n suf k n.
  Proof.
    unfold erase_n. rewrite firstn_app_2, <- app_assoc. f_equal. f_equal.
    replace (List.length body + k + n)%nat with (List.length body + (k + n))%nat by lia. apply skipn_body.
  Qed.

  Lemma len_body suf : suf <> [] -> (List.length (body ++ suf) - 1 = List.length body + (List.length suf - 1))%nat.
  Proof. intros. rewrite app_length. destruct suf; [congruence|cbn; lia]. Qed.

  Lemma last_body_plain : exists c, at_ body (List.length body - 1) = c /\ plain c = true.
  Proof.
    eexists. split; [reflexivity|]. unfold at_.
    assert (In (nth (List.length body - 1) body nul) body).
    { apply nth_In. destruct body; [congruence|cbn; lia]. }
    rewrite Forall_forall in Pb. auto.
  Qed.

  Lemma lnth_body suf ty lty : suf <> [] ->
    lnthSuffix (body ++ suf) ty lty =
    (let '(s, t, l) := lnthSuffix suf ty lty in (body ++ s, t, l)).
  Proof.
    intros Hs. unfold lnthSuffix at 1. rewrite (flo_body isL) by (intros; now apply plain_all).
    unfold lnthSuffix. destruct (find_last_of isL suf) as [k|] eqn:F; cbn [option_map]; [|reflexivity].
    rewrite len_body by auto.
    replace (Nat.eqb (List.length body + k) (List.length body + (List.length suf - 1)))
      with (Nat.eqb k (List.length suf - 1)) by lia.
    destruct (Nat.eqb k (List.length suf - 1)); [reflexivity|].
    replace (S (S (List.length body + k))) with (List.length body + S (S k))%nat by lia.
    replace (S (List.length body + k)) with (List.length body + S k)%nat by lia.
    rewrite !at_body. rewrite erase_body.
    match goal with |- context [let '(a, b) := ?X in _] => destruct X as [t l] end.
    destruct (t =? 5).
    - destruct (erase suf k) as [|c r] eqn:Es.
      + rewrite app_nil_r. destruct last_body_plain as (c & -> & Pc).
        apply plain_all in Pc as (_ & -> & _). cbn [List.length Nat.sub].
        change (isU (at_ [] 0)) with false. now rewrite app_nil_r.
      + rewrite len_body by discriminate. rewrite at_body.
        destruct (isU (at_ (c :: r) (List.length (c :: r) - 1))); [|reflexivity].
        now rewrite erase_body.
    - destruct (isU (at_ suf (List.length suf - 1))); [|reflexivity]. now rewrite app_assoc.
  Qed.

  Lemma suffixes_body suf : suf <> [] ->
    suffixes (body ++ suf) = (let '(u, t, l, s) := suffixes suf in (u, t, l, body ++ s)).
  Proof.
    intros Hs. unfold suffixes.
    rewrite (flo_body isU), (flo_body isP), (flo_body isZ), (flo_body isH), (flo_body isN)
      by (intros; now apply plain_all).
    rewrite !rf_body by reflexivity.
    rewrite len_body, at_body by auto. rewrite !lnth_body by auto.
    replace (match option_map (fun i => (List.length body + i)%nat) (find_last_of isU suf) with
             | Some _ => true | None => false end)
      with (match find_last_of isU suf with Some _ => true | None => false end)
      by (destruct (find_last_of isU suf); reflexivity).
    destruct (lnthSuffix suf (-1) (-1)) as [[s t] l].
    destruct (isdigit (at_ suf (List.length suf - 1))); [reflexivity|].
    destruct (find_last_of isP suf); cbn [option_map]; [now rewrite erase_n_body|].
    destruct (find_last_of isZ suf); cbn [option_map]; [now rewrite erase_n_body|].
    destruct (rfind2 "h" suf); cbn [option_map]; [now rewrite erase_n_body|].
    destruct (rfind2 "H" suf); cbn [option_map]; [now rewrite erase_n_body|].
    destruct (find_last_of isH suf); cbn [option_map]; [now rewrite erase_n_body|].
    destruct (find_last_of isN suf); cbn [option_map]; [now rewrite erase_n_body|].
    destruct (rfind2 "l" suf); cbn [option_map]; [reflexivity|].
    destruct (rfind2 "L" suf); cbn [option_map]; reflexivity.
  Qed.

  Lemma suffixes_none : suffixes body = (false, -1, -1, body).
  Proof.
    assert (F : forall p, (forall c, plain c = true -> p c = false) -> find_last_of p body = None).
    { intros p Hp. rewrite <- (app_nil_r body) at 1. rewrite flo_body by auto. reflexivity. }
    assert (R : forall c, plain c = false -> rfind2 c body = None).
    { intros c Hc. rewrite <- (app_nil_r body) at 1. rewrite rf_body by auto. reflexivity. }
    unfold suffixes, lnthSuffix.
    rewrite (F isU), (F isP), (F isZ), (F isH), (F isN), (F isL) by (intros; now apply plain_all).
    rewrite !R by reflexivity. destruct (isdigit _); reflexivity.
  Qed.
End Body.

(* ---- what each suffix asks for ---- *)

Definition type_of_len (l : len) : Z :=
  match l with
  | Nolen => -1 | Ll => 3 | Lll => 4 | Lhh => 1 | Lh => 0 | Ln => 2
  | L8 => 1 | L16 => 0 | L32 => 2 | L64 => 3 | L128 => 5
  end.

Definition ltype_of_len (l : len) : Z :=
  match l with L8 => 1 | L16 => 0 | L32 => 2 | L64 => 3 | L128 => 6 | _ => -1 end.

Definition sfx_type (su : suffix) : Z :=
  match su with
  | Plain l | Before l => type_of_len l
  | After Ll => -1
  | After l => type_of_len l
  | Size => 2
  | Pointer => -1
  end.

Definition sfx_ltype (su : suffix) : Z :=
  match su with
  | Plain l | Before l | After l => ltype_of_len l
  | Size => 4
  | Pointer => 5
  end.

(* the suffix of the text left over *)
Definition sfx_rest (su : suffix) : suffix :=
  match su with
  | Plain Ll => Plain Ll | Plain Lll => Plain Lll
  | Before Ll => Before Ll | Before Lll => Before Lll | After Lll => After Lll
  | Plain _ | Before L128 | After L128 | Size | Pointer => Plain Nolen
  | Before _ | After _ => Before Nolen
  end.

Lemma suffixes_ok body su suf :
  Forall (fun c => plain c = true) body -> body <> [] -> In suf (suffix_texts su) ->
  exists rest, suffixes (body ++ suf) = (unsigned su, sfx_type su, sfx_ltype su, body ++ rest) /\
    In rest (suffix_texts (sfx_rest su)) /\ (c_suffix su -> su <> After Ll -> rest = suf).
Proof.
  intros P N I.
  destruct suf as [|c0 r0].
  { rewrite app_nil_r. exists []. rewrite app_nil_r. rewrite suffixes_none by auto.
    destruct su as [[]|[]|[]| |]; cbn in I; repeat (destruct I as [I|I]; try discriminate I; try contradiction).
    cbn; auto. }
  remember (c0 :: r0) as suf eqn:E. rewrite (suffixes_body body P N suf) by (subst; discriminate).
  clear E c0 r0.
  destruct su as [[]|[]|[]| |]; cbn in I; repeat (destruct I as [I|I]; [subst suf|]); try contradiction;
    (eexists; split; [reflexivity|split; [cbn; tauto|]]);
    (intros C; try (cbn in C; exfalso; decompose [or] C; try discriminate; contradiction); intros Hne; try reflexivity; try congruence).
Qed.

(* every text left over stops the scan *)
Lemma rest_stop su rest : c_suffix su -> In rest (suffix_texts su) -> stop rest.
Proof.
  intros C I. destruct su as [[]|[]|[]| |]; cbn in C;
    (try (exfalso; decompose [or] C; discriminate)); try contradiction;
    cbn in I; repeat (destruct I as [I|I]; [subst rest|]); try contradiction;
    try (left; reflexivity); right; eexists; eexists; split; reflexivity.
Qed.

Lemma rest_c su : c_suffix (sfx_rest su).
Proof. destruct su as [[]|[]|[]| |]; cbn; tauto. Qed.
