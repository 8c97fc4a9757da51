From Coq Require Import Decimal DecimalNat Ascii String List Bool Arith Lia.
From Verif.Mangle Require Import Model Spec.
Import ListNotations.
Open Scope string_scope.
Open Scope list_scope.
(** strings *)
Lemma eqs_iff : forall a b, eqs a b = true <-> a = b.
Proof.
  induction a as [|x a IH]; destruct b as [|y b]; cbn [eqs]; split; intros H; try discriminate; auto.
  - apply andb_prop in H. destruct H as [H1 H2]. apply Ascii.eqb_eq in H1. apply IH in H2. congruence.
  - injection H as -> ->. rewrite Ascii.eqb_refl. cbn [andb]. apply IH. auto.
Qed.
Fixpoint pre (a b : str) : bool :=
  match a, b with
  | [], _ => true
  | x :: a', y :: b' => Ascii.eqb x y && pre a' b'
  | _, [] => false
  end.
Lemma pre_or : forall a b x y, a ++ x = b ++ y -> pre a b = true \/ pre b a = true.
Proof.
  induction a as [|c a IH]; destruct b as [|e b]; cbn [pre app]; intros x y H; auto. injection H as -> H. rewrite Ascii.eqb_refl. cbn [andb]. eauto.
Qed.
Definition heads (p : ascii -> bool) (s : str) : Prop := match s with [] => True | c :: _ => p c = true end.
Definition nodig (c : ascii) : bool := negb (isdigit c).
Fixpoint alldig (s : str) : bool := match s with [] => true | c :: r => isdigit c && alldig r end.
Lemma digits_dig : forall u, alldig (digits u) = true.
Proof. induction u; cbn [digits alldig]; auto. Qed.
Lemma dig_split : forall a b x y, alldig a = true -> alldig b = true -> heads nodig x -> heads nodig y -> a ++ x = b ++ y -> a = b /\ x = y.
Proof.
  unfold heads, nodig. induction a as [|c a IH]; destruct b as [|e b]; cbn [alldig app]; intros x y A B X Y H; auto.
  - subst x. apply andb_prop in B. destruct B as [B _]. rewrite B in X. discriminate.
  - subst y. apply andb_prop in A. destruct A as [A _]. rewrite A in Y. discriminate.
  - injection H as -> H. apply andb_prop in A, B. destruct (IH b x y); try tauto. split; congruence.
Qed.
Lemma digits_inj : forall u v, digits u = digits v -> u = v.
Proof. induction u; destruct v; cbn [digits]; intros H; try discriminate; auto; injection H as H; f_equal; auto. Qed.
Lemma num_inj : forall a b, num a = num b -> a = b.
Proof. unfold num. intros a b H. apply digits_inj in H. rewrite <- (Unsigned.of_to a), <- (Unsigned.of_to b). congruence. Qed.
Lemma num_split : forall a b x y, heads nodig x -> heads nodig y -> num a ++ x = num b ++ y -> a = b /\ x = y.
Proof. intros a b x y X Y H. apply dig_split in H; auto; try apply digits_dig. destruct H as [H1 H2]. split; auto. apply num_inj. auto. Qed.
Lemma app_len : forall (a b x y : str), length a = length b -> a ++ x = b ++ y -> a = b /\ x = y.
Proof. induction a as [|c a IH]; destruct b as [|e b]; cbn [length app]; intros x y L H; try discriminate; auto. injection H as -> H. injection L as L. destruct (IH b x y); auto. subst. auto. Qed.
Lemma heads_name : forall n x, name_ok n = true -> heads nodig x -> heads nodig (n ++ x).
Proof. intros [|c n] x N X; auto. Qed.
Lemma lenname_split : forall a b x y, name_ok a = true -> name_ok b = true -> heads nodig x -> heads nodig y -> lenname a ++ x = lenname b ++ y -> a = b /\ x = y.
Proof.
  unfold lenname. intros a b x y A B X Y H. rewrite <- !app_assoc in H. apply num_split in H; auto using heads_name. destruct H as [H1 H2]. apply app_len; auto.
Qed.
(** the encoding of trees *)
Section NtInd.
  Variable P : nt -> Prop.
  Hypothesis HQ : forall x t, P t -> P (NQ x t).
  Hypothesis HPoly : forall d f v asr t, Forall (fun a => P (snd a)) asr -> P t -> P (NPoly d f v asr t).
  Hypothesis HVoid : P NVoid.
  Hypothesis HBasic : forall k, P (NBasic k).
  Hypothesis HPtr : forall t, P t -> P (NPtr t).
  Hypothesis HArr : forall t, P t -> P (NArr t).
  Hypothesis HFun : forall rs ps, Forall P rs -> Forall P ps -> P (NFun rs ps).
  Hypothesis HInst : forall k n ps, Forall P ps -> P (NInst k n ps).
  Hypothesis HVar : forall k, P (NVar k).
  Hypothesis HTuple : forall ts, Forall P ts -> P (NTuple ts).
  Hypothesis HZero : P NZero.
  Hypothesis HOne : P NOne.
  Hypothesis HQual : forall cs, Forall P cs -> P (NQual cs).
  Fixpoint nt_ind2 (t : nt) : P t :=
    let each := fix each (l : list nt) : Forall P l := match l with [] => Forall_nil P | x :: r => Forall_cons x (nt_ind2 x) (each r) end in
    match t with
    | NQ x t => HQ x t (nt_ind2 t)
    | NPoly d f v asr t => HPoly d f v asr t ((fix ea (l : list (str * nt)) : Forall (fun a => P (snd a)) l := match l with [] => Forall_nil _ | (n, x) :: r => Forall_cons (n, x) (nt_ind2 x) (ea r) end) asr) (nt_ind2 t)
    | NVoid => HVoid
    | NBasic k => HBasic k
    | NPtr t => HPtr t (nt_ind2 t)
    | NArr t => HArr t (nt_ind2 t)
    | NFun rs ps => HFun rs ps (each rs) (each ps)
    | NInst k n ps => HInst k n ps (each ps)
    | NVar k => HVar k
    | NTuple ts => HTuple ts (each ts)
    | NZero => HZero
    | NOne => HOne
    | NQual cs => HQual cs (each cs)
    end.
End NtInd.
Section TyInd.
  Variable P : ty -> Prop.
  Hypothesis HVoid : forall q, P (Void q).
  Hypothesis HBasic : forall q k, P (Basic q k).
  Hypothesis HPtr : forall q t, P t -> P (Ptr q t).
  Hypothesis HArr : forall q d t, P t -> P (Arr q d t).
  Hypothesis HRef : forall q t, P t -> P (Ref q t).
  Hypothesis HFun : forall fa asr rs ps, Forall (fun a => P (snd a)) asr -> Forall P rs -> Forall P ps -> P (Fun fa asr rs ps).
  Hypothesis HInst : forall k q n ps, Forall P ps -> P (Inst k q n ps).
  Hypothesis HTuple : forall q ts, Forall P ts -> P (Tuple q ts).
  Hypothesis HVarArgs : forall q, P (VarArgs q).
  Hypothesis HZero : forall q, P (Zero q).
  Hypothesis HOne : forall q, P (One q).
  Hypothesis HQual : forall p c, P p -> P c -> P (Qual p c).
  Fixpoint ty_ind2 (t : ty) : P t :=
    let each := fix each (l : list ty) : Forall P l := match l with [] => Forall_nil P | x :: r => Forall_cons x (ty_ind2 x) (each r) end in
    match t with
    | Void q => HVoid q
    | Basic q k => HBasic q k
    | Ptr q t => HPtr q t (ty_ind2 t)
    | Arr q d t => HArr q d t (ty_ind2 t)
    | Ref q t => HRef q t (ty_ind2 t)
    | Fun fa asr rs ps => HFun fa asr rs ps ((fix ea (l : list (str * ty)) : Forall (fun a => P (snd a)) l := match l with [] => Forall_nil _ | (n, x) :: r => Forall_cons (n, x) (ty_ind2 x) (ea r) end) asr) (each rs) (each ps)
    | Inst k q n ps => HInst k q n ps (each ps)
    | Tuple q ts => HTuple q ts (each ts)
    | VarArgs q => HVarArgs q
    | Zero q => HZero q
    | One q => HOne q
    | Qual p c => HQual p c (ty_ind2 p) (ty_ind2 c)
    end.
End TyInd.
Definition qstr (x : qual) : str := match x with CK => #"K" | CV => #"V" | CA => #"DA" | CX => #"X" end.
Definition tok (t : nt) : str :=
  match t with
  | NQ x _ => qstr x | NPoly _ _ _ _ _ => #"Q" | NVoid => #"v" | NBasic k => basic k | NPtr _ => #"P" | NArr _ => #"A0" | NFun _ _ => #"F"
  | NInst k _ _ => ichar k | NVar k => typeVariable k ++ #"0" | NTuple _ => #"T" | NZero => #"Z" | NOne => #"O" | NQual _ => #"N"
  end.
Fixpoint enc (t : nt) : str :=
  tok t ++
  match t with
  | NQ _ u | NPtr u | NArr u => enc u
  | NPoly d f v asr u => num d ++ #"_" ++ num f ++ #"_" ++ num v ++ #"_" ++ num (length asr) ++ #"_" ++ concat (map (fun a => #"_X" ++ lenname (fst a) ++ enc (snd a)) asr) ++ #"_" ++ enc u
  | NFun rs ps => concat (map enc rs) ++ #"_" ++ concat (map enc ps) ++ #"_"
  | NInst _ n ps => lenname n ++ (if none ps then [] else #"_" ++ concat (map enc ps) ++ #"_")
  | NTuple ts => num (length ts) ++ concat (map enc ts)
  | NQual cs => concat (map enc cs) ++ #"E"
  | NVoid | NBasic _ | NVar _ | NZero | NOne => []
  end.
Definition code (t : nt) : nat :=
  match t with
  | NQ CK _ => 0 | NQ CV _ => 1 | NQ CA _ => 2 | NQ CX _ => 3 | NPoly _ _ _ _ _ => 4 | NVoid => 5 | NPtr _ => 6 | NArr _ => 7 | NFun _ _ => 8
  | NInst Struct _ _ => 9 | NInst Union _ _ => 10 | NInst Enum _ _ => 11 | NInst TypeI _ _ => 12 | NVar Dtype => 13 | NVar Ftype => 14 | NVar Ttype => 15
  | NTuple _ => 16 | NZero => 17 | NOne => 18 | NQual _ => 19 | NBasic k => 20 + k
  end.
Definition tokens : list str :=
  map s_ ["K"; "V"; "DA"; "X"; "Q"; "v"; "P"; "A0"; "F"; "S"; "U"; "M"; "Y"; "BD0"; "BF0"; "BT0"; "T"; "Z"; "O"; "N"] ++ map s_ basicTypes.
Fixpoint wfn (g : generic) (t : nt) : bool :=
  match t with
  | NQ _ u | NPtr u | NArr u => wfn g u
  | NPoly _ _ _ asr u => forallb (fun a => name_ok (fst a) && wfn g (snd a)) asr && wfn g u
  | NFun rs ps => forallb (wfn g) rs && forallb (wfn g) ps
  | NInst k n ps => name_ok n && Bool.eqb (none ps) (negb (g k n)) && forallb (wfn g) ps
  | NTuple ts => forallb (wfn g) ts
  | NQual cs => forallb (wfn g) cs
  | NBasic k => Nat.ltb k 36
  | NVoid | NVar _ | NZero | NOne => true
  end.
Definition small (t : nt) : bool := match t with NBasic k => Nat.ltb k 36 | _ => true end.
Lemma wfn_small : forall g t, wfn g t = true -> small t = true.
Proof. intros g t H. destruct t; auto. Qed.
Lemma code_lt : forall t, small t = true -> code t < 56.
Proof. intros t H. destruct t; cbn [code]; try (destruct k); try (destruct x); try lia; unfold small in H; apply Nat.ltb_lt in H; lia. Qed.
Lemma tok_code : forall t, small t = true -> tok t = nth (code t) tokens [].
Proof.
  intros t H. destruct t; try (destruct x); try reflexivity; try (destruct k; reflexivity). unfold small in H. apply Nat.ltb_lt in H. cbn [tok code]. unfold tokens. rewrite app_nth2; rewrite map_length; cbn [length]; [|lia]. replace (20 + k - 20) with k by lia. unfold basic. change (@nil ascii) with (s_ ""). rewrite map_nth. reflexivity.
Qed.
Lemma tokens_free : forall i j, i < 56 -> j < 56 -> pre (nth i tokens []) (nth j tokens []) = true -> i = j.
Proof.
  assert (T : forallb (fun i => forallb (fun j => implb (pre (nth i tokens []) (nth j tokens [])) (Nat.eqb i j)) (seq 0 56)) (seq 0 56) = true) by (vm_compute; reflexivity).
  intros i j I J H. rewrite forallb_forall in T. specialize (T i). rewrite in_seq in T. assert (I' : 0 <= i < 0 + 56) by lia. specialize (T I'). cbv beta in T. rewrite forallb_forall in T. specialize (T j). rewrite in_seq in T. assert (J' : 0 <= j < 0 + 56) by lia. specialize (T J'). cbv beta in T. rewrite H in T. cbn [implb] in T. apply Nat.eqb_eq in T. auto.
Qed.
Lemma tok_split : forall a b x y, small a = true -> small b = true -> tok a ++ x = tok b ++ y -> code a = code b /\ x = y.
Proof.
  intros a b x y A B H. assert (C : code a = code b).
  { pose proof (pre_or _ _ _ _ H) as P. rewrite !tok_code in P by auto. destruct P as [P|P]; apply tokens_free in P; auto using code_lt. }
  split; auto. rewrite !tok_code in H by auto. rewrite C in H. apply app_inv_head in H. auto.
Qed.
Definition starter (c : ascii) : bool := negb (isdigit c) && negb (Ascii.eqb c (ch "_")) && negb (Ascii.eqb c (ch "E")).
Lemma enc_start : forall t, small t = true -> exists c r, enc t = c :: r /\ starter c = true.
Proof.
  intros t H. assert (T : forallb (fun s => match s with [] => false | c :: _ => starter c end) tokens = true) by (vm_compute; reflexivity).
  rewrite forallb_forall in T. specialize (T (nth (code t) tokens [])). assert (I : In (nth (code t) tokens []) tokens) by (apply nth_In; change (length tokens) with 56; apply code_lt; auto). specialize (T I). rewrite <- tok_code in T by auto.
  destruct (tok t) as [|c r] eqn:E; [discriminate|]. exists c. destruct t; cbn [enc]; rewrite E; cbn [app]; eauto.
Qed.
Lemma enc_heads : forall t x, small t = true -> heads nodig (enc t ++ x).
Proof.
  intros t x H. destruct (enc_start t H) as (c & r & E & S). rewrite E. cbn [app heads]. unfold starter in S. unfold nodig. destruct (isdigit c); auto.
Qed.
Lemma encs_heads : forall g l x, forallb (wfn g) l = true -> heads nodig x -> heads nodig (concat (map enc l) ++ x).
Proof. intros g [|t l] x H X; auto. cbn [map concat forallb] in *. apply andb_prop in H. rewrite <- app_assoc. apply enc_heads. eapply wfn_small. apply H. Qed.
Definition stop (c : ascii) : bool := Ascii.eqb c (ch "_") || Ascii.eqb c (ch "E").
Lemma stop_start : forall c, stop c = true -> starter c = true -> False.
Proof. unfold stop, starter. intros c H K. destruct (Ascii.eqb c (ch "_")), (Ascii.eqb c (ch "E")), (isdigit c); discriminate. Qed.
Definition P_ (g : generic) (a : nt) : Prop := forall b x y, wfn g a = true -> wfn g b = true -> heads nodig x -> heads nodig y -> enc a ++ x = enc b ++ y -> a = b /\ x = y.
Lemma stop_heads : forall c x, stop c = true -> heads nodig (c :: x).
Proof. unfold stop, heads, nodig. intros c x H. apply orb_prop in H. destruct H as [H|H]; apply Ascii.eqb_eq in H; subst c; reflexivity. Qed.
Lemma list_stop : forall g l l' c c' x y, Forall (P_ g) l -> forallb (wfn g) l = true -> forallb (wfn g) l' = true -> stop c = true -> stop c' = true ->
  concat (map enc l) ++ c :: x = concat (map enc l') ++ c' :: y -> l = l' /\ c :: x = c' :: y.
Proof.
  induction l as [|a l IH]; destruct l' as [|b l']; cbn [map concat forallb app]; intros c c' x y F W W' C C' H; auto.
  - apply andb_prop in W'. destruct W' as [W' _]. destruct (enc_start b (wfn_small _ _ W')) as (e & r & E & S). rewrite E in H. cbn [app] in H. injection H as -> H. destruct (stop_start e C S).
  - apply andb_prop in W. destruct W as [W _]. destruct (enc_start a (wfn_small _ _ W)) as (e & r & E & S). rewrite E in H. cbn [app] in H. injection H as -> H. destruct (stop_start c' C' S).
  - apply andb_prop in W, W'. destruct W as [W1 W2], W' as [W1' W2']. inversion F as [|? ? F1 F2]; subst. rewrite <- !app_assoc in H. destruct (F1 b _ _ W1 W1' (encs_heads _ _ _ W2 (stop_heads _ _ C)) (encs_heads _ _ _ W2' (stop_heads _ _ C')) H) as [-> H2]. destruct (IH l' c c' x y) as [-> H3]; try tauto.
Qed.
Lemma list_len : forall g l l' x y, Forall (P_ g) l -> forallb (wfn g) l = true -> forallb (wfn g) l' = true -> length l = length l' -> heads nodig x -> heads nodig y ->
  concat (map enc l) ++ x = concat (map enc l') ++ y -> l = l' /\ x = y.
Proof.
  induction l as [|a l IH]; destruct l' as [|b l']; cbn [map concat forallb app length]; intros x y F W W' L X Y H; try discriminate; auto.
  apply andb_prop in W, W'. destruct W as [W1 W2], W' as [W1' W2']. inversion F as [|? ? F1 F2]; subst. rewrite <- !app_assoc in H. destruct (F1 b _ _ W1 W1' (encs_heads _ _ _ W2 X) (encs_heads _ _ _ W2' Y) H) as [-> H2]. destruct (IH l' x y) as [-> H3]; try tauto. lia.
Qed.
Definition enca (a : str * nt) : str := #"_X" ++ lenname (fst a) ++ enc (snd a).
Lemma encas_heads : forall l x, heads nodig x -> heads nodig (concat (map enca l) ++ x).
Proof. intros [|a l] x X; auto. reflexivity. Qed.
Lemma asr_len : forall g l l' x y, Forall (fun a => P_ g (snd a)) l -> forallb (fun a => name_ok (fst a) && wfn g (snd a)) l = true -> forallb (fun a => name_ok (fst a) && wfn g (snd a)) l' = true -> length l = length l' -> heads nodig x -> heads nodig y ->
  concat (map enca l) ++ x = concat (map enca l') ++ y -> l = l' /\ x = y.
Proof.
  induction l as [|[n a] l IH]; destruct l' as [|[m b] l']; cbn [map concat forallb app length fst snd]; intros x y F W W' L X Y H; try discriminate; auto. unfold enca at 1 3 in H. cbn [fst snd] in H.
  apply andb_prop in W, W'. destruct W as [W1 W2], W' as [W1' W2']. apply andb_prop in W1, W1'. destruct W1 as [N1 W1], W1' as [N1' W1']. inversion F as [|? ? F1 F2]; subst. cbn [snd] in F1. rewrite <- !app_assoc in H. apply app_inv_head in H.
  apply lenname_split in H; try tauto; try (apply enc_heads; eapply wfn_small; eassumption). destruct H as [-> H]. destruct (F1 b _ _ W1 W1' (encas_heads l x X) (encas_heads l' y Y) H) as [-> H2]. destruct (IH l' x y) as [-> H3]; try tauto. lia.
Qed.
Lemma us_heads : forall x, heads nodig (#"_" ++ x).
Proof. intros x. reflexivity. Qed.
Lemma if_heads : forall (b : bool) x, heads nodig ((if b then [] else #"_" ++ x)).
Proof. intros [] x; [exact Logic.I|apply us_heads]. Qed.
Definition body (t : nt) : str :=
  match t with
  | NQ _ u | NPtr u | NArr u => enc u
  | NPoly d f v asr u => num d ++ #"_" ++ num f ++ #"_" ++ num v ++ #"_" ++ num (length asr) ++ #"_" ++ concat (map enca asr) ++ #"_" ++ enc u
  | NFun rs ps => concat (map enc rs) ++ #"_" ++ concat (map enc ps) ++ #"_"
  | NInst _ n ps => lenname n ++ (if none ps then [] else #"_" ++ concat (map enc ps) ++ #"_")
  | NTuple ts => num (length ts) ++ concat (map enc ts)
  | NQual cs => concat (map enc cs) ++ #"E"
  | NVoid | NBasic _ | NVar _ | NZero | NOne => []
  end.
Lemma enc_body : forall t, enc t = tok t ++ body t.
Proof. destruct t; reflexivity. Qed.
Lemma enc_split : forall g a b x y, wfn g a = true -> wfn g b = true -> enc a ++ x = enc b ++ y -> code a = code b /\ body a ++ x = body b ++ y.
Proof. intros g a b x y A B H. rewrite !enc_body, <- !app_assoc in H. apply tok_split in H; eauto using wfn_small. Qed.
Lemma enc_prefix : forall g a, P_ g a.
Proof.
  intros g. induction a as [q a IH|d f v asr a IHs IH| |k|a IH|a IH|rs ps IHr IHp|k n ps IHp|k|ts IHt| | |cs IHc] using nt_ind2; intros b x y Wa Wb X Y H; destruct (enc_split _ _ _ _ _ Wa Wb H) as [C B]; clear H; cbn [code body] in C, B.
  - destruct b as [q' b| | | | | | |k'|k'| | | |]; try (destruct q; discriminate C); try (destruct q; destruct k'; discriminate C). cbn [wfn body] in *. destruct (IH b x y) as [-> ->]; auto. split; auto. destruct q, q'; try discriminate C; reflexivity.
  - destruct b as [q'|d' f' v' asr' b| | | | | |k'|k'| | | |]; try (destruct q'; discriminate C); try (destruct k'; discriminate C); try discriminate C. cbn [wfn body] in *. apply andb_prop in Wa, Wb. rewrite <- !app_assoc in B.
    apply num_split in B; try apply us_heads. destruct B as [-> B]. apply app_inv_head in B. apply num_split in B; try apply us_heads. destruct B as [-> B]. apply app_inv_head in B. apply num_split in B; try apply us_heads. destruct B as [-> B]. apply app_inv_head in B.
    apply num_split in B; try apply us_heads. destruct B as [L B]. apply app_inv_head in B. apply (asr_len g) in B; try tauto; try apply us_heads. destruct B as [-> B]. apply app_inv_head in B. destruct (IH b x y) as [-> ->]; tauto.
  - destruct b as [q'| | | | | | |k'|k'| | | |]; try (destruct q'; discriminate C); try (destruct k'; discriminate C); try discriminate C. auto.
  - destruct b as [q'| | | | | | |k'|k'| | | |]; try (destruct q'; discriminate C); try (destruct k'; discriminate C); try discriminate C. cbn [body code] in *. assert (k = k0) by lia. subst. auto.
  - destruct b as [q'| | | | | | |k'|k'| | | |]; try (destruct q'; discriminate C); try (destruct k'; discriminate C); try discriminate C. cbn [wfn body] in *. destruct (IH b x y) as [-> ->]; auto.
  - destruct b as [q'| | | | | | |k'|k'| | | |]; try (destruct q'; discriminate C); try (destruct k'; discriminate C); try discriminate C. cbn [wfn body] in *. destruct (IH b x y) as [-> ->]; auto.
  - destruct b as [q'| | | | | |rs' ps'|k'|k'| | | |]; try (destruct q'; discriminate C); try (destruct k'; discriminate C); try discriminate C. cbn [wfn body] in *. apply andb_prop in Wa, Wb. rewrite <- !app_assoc in B. cbn [s_ list_ascii_of_string app] in B.
    apply (list_stop g) in B; try tauto; try reflexivity. destruct B as [-> B]. injection B as B. apply (list_stop g) in B; try tauto; try reflexivity. destruct B as [-> B]. injection B as B. auto.
  - destruct b as [q'| | |k'| | | |k' n' ps'|k'| | | |]; try (destruct q', k; discriminate C); try (destruct k, k'; discriminate C); try (destruct k; discriminate C). assert (k = k') by (destruct k, k'; try discriminate C; reflexivity). subst k'. cbn [wfn body] in *. apply andb_prop in Wa, Wb. destruct Wa as [Wa1 Wa2], Wb as [Wb1 Wb2]. apply andb_prop in Wa1, Wb1. destruct Wa1 as [Na Ga], Wb1 as [Nb Gb].
    rewrite <- !app_assoc in B. apply lenname_split in B; auto; [|destruct (none ps); auto; reflexivity|destruct (none ps'); auto; reflexivity]. destruct B as [-> B]. apply eqb_prop in Ga, Gb. rewrite <- Gb in Ga. destruct ps as [|p ps], ps' as [|p' ps']; try discriminate Ga; [auto|]. cbn [none] in B. rewrite <- !app_assoc in B. apply app_inv_head in B. cbn [s_ list_ascii_of_string app] in B.
    apply (list_stop g) in B; auto. destruct B as [B1 B]. injection B as B. rewrite B1. auto.
  - destruct b as [q'| | |k'| | | |k' n' ps'|k'| | | |]; try (destruct q', k; discriminate C); try (destruct k, k'; discriminate C); try (destruct k; discriminate C). cbn [body app] in B. split; auto. destruct k, k'; try discriminate C; reflexivity.
  - destruct b as [q'| | | | | | |k'|k'|ts'| | |]; try (destruct q'; discriminate C); try (destruct k'; discriminate C); try discriminate C. cbn [wfn body] in *. rewrite <- !app_assoc in B. apply num_split in B; eauto using encs_heads. destruct B as [L B]. apply (list_len g) in B; auto. destruct B as [-> ->]. auto.
  - destruct b as [q'| | | | | | |k'|k'| | | |]; try (destruct q'; discriminate C); try (destruct k'; discriminate C); try discriminate C. auto.
  - destruct b as [q'| | | | | | |k'|k'| | | |]; try (destruct q'; discriminate C); try (destruct k'; discriminate C); try discriminate C. auto.
  - destruct b as [q'| | | | | | |k'|k'| | | |cs']; try (destruct q'; discriminate C); try (destruct k'; discriminate C); try discriminate C. cbn [wfn body] in *. rewrite <- !app_assoc in B. cbn [s_ list_ascii_of_string app] in B. apply (list_stop g) in B; auto. destruct B as [-> B]. injection B as B. auto.
Qed.
(** the mangler writes the encoding of what erase keeps *)
Definition mangles (md : mode) (inq : bool) := fix each (inf : bool) (vs : vars) (l : list ty) {struct l} : str * vars :=
  match l with
  | [] => ([], vs)
  | x :: r => let (a, v1) := mangle md inq inf vs x in let (b, v2) := each inf v1 r in (a ++ b, v2)
  end.
Definition erases (md : mode) (inq : bool) := fix each (param : bool) (vs : vars) (l : list ty) {struct l} : list nt * vars :=
  match l with
  | [] => ([], vs)
  | x :: r => let (a, v1) := erase md inq param vs x in let (b, v2) := each param v1 r in (a ++ b, v2)
  end.
Lemma mangles_cons : forall md inq inf vs x r, mangles md inq inf vs (x :: r) = let (a, v1) := mangle md inq inf vs x in let (b, v2) := mangles md inq inf v1 r in (a ++ b, v2).
Proof. reflexivity. Qed.
Lemma erases_cons : forall md inq inf vs x r, erases md inq inf vs (x :: r) = let (a, v1) := erase md inq inf vs x in let (b, v2) := erases md inq inf v1 r in (a ++ b, v2).
Proof. reflexivity. Qed.
Definition polym (md : mode) (fa : list (str * kind)) (asr : list (str * ty)) : bool := negb (tm md) && negb (none fa && none asr).
Definition decl0 md vs fa asr : vars := if polym md fa asr then declare vs fa else vs.
Definition asrs (md : mode) (v0 : vars) (asr : list (str * ty)) : list (str * nt) := map (fun a => (out_name (fst a), hd NVoid (fst (erase md false false v0 (snd a))))) asr.
Lemma mangle_fun : forall md inq inf vs fa asr rs ps, mangle md inq inf vs (Fun fa asr rs ps) =
  let v0 := decl0 md vs fa asr in let (x, v1) := mangles md inq true v0 rs in let (y, v2) := mangles md inq true v1 ps in
  ((if polym md fa asr then #"Q" ++ num (kcount Dtype fa) ++ #"_" ++ num (kcount Ftype fa) ++ #"_" ++ num (kcount Ttype fa) ++ #"_" ++ num (length asr) ++ #"_" ++ concat (map (fun a => #"_X" ++ lenname (out_name (fst a)) ++ fst (mangle md false false v0 (snd a))) asr) ++ #"_" else [])
    ++ #"F" ++ (if none rs then #"v" else x) ++ #"_" ++ y ++ #"_", v2).
Proof. reflexivity. Qed.
Lemma erase_fun : forall md inq inf vs fa asr rs ps, erase md inq inf vs (Fun fa asr rs ps) =
  let v0 := decl0 md vs fa asr in let (x, v1) := erases md inq true v0 rs in let (y, v2) := erases md inq true v1 ps in
  let f := NFun (if none rs then [NVoid] else x) y in
  ([if polym md fa asr then NPoly (kcount Dtype fa) (kcount Ftype fa) (kcount Ttype fa) (asrs md v0 asr) f else f], v2).
Proof. reflexivity. Qed.
Lemma mangle_inst : forall md inq inf vs k q n ps, mangle md inq inf vs (Inst k q n ps) =
  match (match k with TypeI => vfind vs n | _ => None end) with
  | Some kd => (printq md inf q ++ typeVariable kd ++ #"0", vs)
  | None => let (x, v) := mangles md inq false vs ps in if gp md && negb (none ps) then (printq md inf q ++ ichar k ++ lenname n ++ #"_" ++ x ++ #"_", v) else (printq md inf q ++ ichar k ++ lenname n, vs)
  end.
Proof. reflexivity. Qed.
Lemma erase_inst : forall md inq inf vs k q n ps, erase md inq inf vs (Inst k q n ps) =
  match (match k with TypeI => vfind vs n | _ => None end) with
  | Some kd => ([cv md inf q (NVar kd)], vs)
  | None => let (x, v) := erases md inq false vs ps in if gp md then ([cv md inf q (NInst k n x)], v) else ([cv md inf q (NInst k n [])], vs)
  end.
Proof. reflexivity. Qed.
Lemma mangle_tuple : forall md inq inf vs q ts, mangle md inq inf vs (Tuple q ts) = let (x, v) := mangles md inq false vs ts in (printq md inf q ++ #"T" ++ num (length ts) ++ x, v).
Proof. reflexivity. Qed.
Lemma erase_tuple : forall md inq inf vs q ts, erase md inq inf vs (Tuple q ts) = let (x, v) := erases md inq false vs ts in (cv md inf q (NTuple (firstn (length ts) x)) :: skipn (length ts) x, v).
Proof. reflexivity. Qed.
Lemma cv_enc : forall md inf q t, enc (cv md inf q t) = printq md inf q ++ enc t.
Proof.
  intros [[|] g] [|] [[|] [|] [|] [|]] t; reflexivity.
Qed.
Definition encs (l : list nt) : str := concat (map enc l).
Lemma encs_app : forall a b, encs (a ++ b) = encs a ++ encs b.
Proof. intros. unfold encs. rewrite map_app, concat_app. auto. Qed.
Lemma encs_one : forall a, encs [a] = enc a.
Proof. intros. unfold encs. cbn [map concat]. apply app_nil_r. Qed.
Lemma encs_hd : forall f p l, l <> [] -> (forall x, enc (f x) = p ++ enc x) -> encs (onhd f l) = p ++ encs l.
Proof. intros f p [|x l] N H; [congruence|]. unfold encs. cbn [onhd map concat]. rewrite H, <- app_assoc. auto. Qed.
Lemma onhd_len : forall f l, length (onhd f l) = length l.
Proof. destruct l; auto. Qed.
(** sizes *)
Definition sized (md : mode) (t : ty) : Prop := forall inq inf vs, 1 <= length (fst (erase md inq inf vs t)) /\ (inq = false -> length (fst (erase md inq inf vs t)) = 1).
Lemma sizeds : forall md l, Forall (sized md) l -> forall inq inf vs, length l <= length (fst (erases md inq inf vs l)) /\ (inq = false -> length (fst (erases md inq inf vs l)) = length l).
Proof.
  induction l as [|x l IH]; intros F inq inf vs; [cbn; auto|]. inversion F as [|? ? F1 F2]; subst. rewrite erases_cons. cbn [length]. specialize (F1 inq inf vs). destruct (erase md inq inf vs x) as [a v1]. specialize (IH F2 inq inf v1). destruct (erases md inq inf v1 l) as [b v2]. cbn [fst] in *. rewrite app_length. destruct F1 as [F1 F1'], IH as [IH IH']. split; [lia|]. intros E. rewrite F1', IH'; auto.
Qed.
Lemma all_sized : forall md t, sized md t.
Proof.
  intros md. induction t as [q|q k|q t IH|q d t IH|q t IH|fa asr rs ps IHa IHr IHp|k q n ps IHp|q ts IHt|q|q|q|p c IHp IHc] using ty_ind2; intros inq inf vs; try (cbn; auto; fail).
  - cbn [erase]. specialize (IH inq false vs). destruct (erase md inq false vs t) as [l v]. cbn [fst] in *. rewrite onhd_len. auto.
  - cbn [erase]. specialize (IH inq false vs). destruct (erase md inq false vs t) as [l v]. cbn [fst] in *. rewrite onhd_len. auto.
  - cbn [erase]. specialize (IH inq false vs). destruct (erase md inq false vs t) as [l v]. cbn [fst] in *. rewrite onhd_len. auto.
  - rewrite erase_fun. cbv zeta. destruct (erases md inq true (decl0 md vs fa asr) rs) as [x v1]. destruct (erases md inq true v1 ps) as [y v2]. cbn. auto.
  - rewrite erase_inst. destruct (match k with TypeI => vfind vs n | _ => None end); [cbn; auto|]. destruct (erases md inq false vs ps) as [x v]. destruct (gp md); cbn; auto.
  - rewrite erase_tuple. pose proof (sizeds md ts IHt inq false vs) as S. destruct (erases md inq false vs ts) as [x v]. cbn [fst length] in *. rewrite skipn_length. split; [lia|]. intros E. rewrite (proj2 S E). lia.
  - cbn [erase]. specialize (IHp true inf vs). destruct (erase md true inf vs p) as [x v1]. specialize (IHc true inf v1). destruct (erase md true inf v1 c) as [y v2]. cbn [fst] in *. destruct inq; [|cbn; auto]. rewrite app_length. split; [lia|discriminate].
Qed.
Lemma sizes : forall md l inq inf vs, length l <= length (fst (erases md inq inf vs l)) /\ (inq = false -> length (fst (erases md inq inf vs l)) = length l).
Proof. intros md l. apply sizeds. apply Forall_forall. intros t _. apply all_sized. Qed.
Definition wrote (md : mode) (t : ty) : Prop := forall inq inf vs, mangle md inq inf vs t = (encs (fst (erase md inq inf vs t)), snd (erase md inq inf vs t)).
Lemma wrotes : forall md l, Forall (wrote md) l -> forall inq inf vs, mangles md inq inf vs l = (encs (fst (erases md inq inf vs l)), snd (erases md inq inf vs l)).
Proof.
  induction l as [|x l IH]; intros F inq inf vs; auto. inversion F as [|? ? F1 F2]; subst. rewrite mangles_cons, erases_cons, F1. destruct (erase md inq inf vs x) as [a v1]. cbn [fst snd]. rewrite (IH F2). destruct (erases md inq inf v1 l) as [b v2]. cbn [fst snd]. rewrite encs_app. auto.
Qed.
Lemma nonnil : forall {A} (l : list A), 1 <= length l -> l <> [].
Proof. intros A [|] H; [cbn in H; lia|discriminate]. Qed.
Lemma mangle_enc : forall md t, wrote md t.
Proof.
  intros md. induction t as [q|q k|q t IH|q d t IH|q t IH|fa asr rs ps IHa IHr IHp|k q n ps IHp|q ts IHt|q|q|q|p c IHp IHc] using ty_ind2; intros inq inf vs.
  - cbn [mangle erase fst snd]. rewrite encs_one, cv_enc. auto.
  - cbn [mangle erase fst snd]. rewrite encs_one, cv_enc. cbn [enc tok]. rewrite app_nil_r. auto.
  - cbn [mangle erase]. rewrite IH. pose proof (proj1 (all_sized md t inq false vs)) as S. destruct (erase md inq false vs t) as [l v]. cbn [fst snd] in *. f_equal. rewrite (encs_hd _ (printq md inf q ++ (if isfun t then [] else #"P"))); auto using nonnil; [rewrite <- app_assoc; auto|]. intros x. rewrite cv_enc, <- app_assoc. destruct (isfun t); auto.
  - cbn [mangle erase]. rewrite IH. pose proof (proj1 (all_sized md t inq false vs)) as S. destruct (erase md inq false vs t) as [l v]. cbn [fst snd] in *. f_equal. rewrite (encs_hd _ (printq md inf q ++ #"A0")); auto using nonnil; [rewrite <- app_assoc; auto|]. intros x. rewrite cv_enc, <- app_assoc. auto.
  - cbn [mangle erase]. rewrite IH. pose proof (proj1 (all_sized md t inq false vs)) as S. destruct (erase md inq false vs t) as [l v]. cbn [fst snd] in *. f_equal. rewrite (encs_hd _ (printq md true q)); auto using nonnil. intros x. apply cv_enc.
  - rewrite mangle_fun, erase_fun. cbv zeta. rewrite (wrotes _ _ IHr). destruct (erases md inq true (decl0 md vs fa asr) rs) as [x v1]. cbn [fst snd]. rewrite (wrotes _ _ IHp). destruct (erases md inq true v1 ps) as [y v2]. cbn [fst snd]. f_equal. rewrite encs_one.
    assert (F : enc (NFun (if none rs then [NVoid] else x) y) = #"F" ++ (if none rs then #"v" else encs x) ++ #"_" ++ encs y ++ #"_") by (destruct (none rs); reflexivity).
    destruct (polym md fa asr); [|rewrite F; auto]. rewrite enc_body. cbn [tok body]. rewrite F. rewrite <- !app_assoc. unfold asrs. rewrite map_length, map_map. do 9 f_equal. f_equal. f_equal.
    apply map_ext_in. intros a Ia. unfold enca. cbn [fst snd]. do 2 f_equal. rewrite Forall_forall in IHa. rewrite (IHa a Ia). cbn [fst]. pose proof (proj2 (all_sized md (snd a) false false (decl0 md vs fa asr)) eq_refl) as S. destruct (fst (erase md false false (decl0 md vs fa asr) (snd a))) as [|z [|]]; try discriminate S. cbn [hd]. apply encs_one.
  - rewrite mangle_inst, erase_inst. destruct (match k with TypeI => vfind vs n | _ => None end) as [kd|]; [cbn [fst snd]; rewrite encs_one, cv_enc; cbn [enc tok]; rewrite app_nil_r; auto|]. rewrite (wrotes _ _ IHp). pose proof (proj1 (sizes md ps inq false vs)) as S. destruct (erases md inq false vs ps) as [x v] eqn:E. cbn [fst snd] in *.
    destruct (gp md); cbn [andb fst snd]; [|rewrite encs_one, cv_enc; cbn [enc tok none]; rewrite app_nil_r; auto]. destruct ps as [|p ps]; cbn [none negb].
    + cbn [erases] in E. injection E as <- <-. rewrite encs_one, cv_enc. cbn [enc tok none]. rewrite app_nil_r. auto.
    + cbn [length] in S. destruct x as [|a x]; [cbn in S; lia|]. rewrite encs_one, cv_enc. reflexivity.
  - rewrite mangle_tuple, erase_tuple. rewrite (wrotes _ _ IHt). pose proof (proj1 (sizes md ts inq false vs)) as S. destruct (erases md inq false vs ts) as [x v]. cbn [fst snd] in *. f_equal. change (cv md inf q (NTuple (firstn (length ts) x)) :: skipn (length ts) x) with ([cv md inf q (NTuple (firstn (length ts) x))] ++ skipn (length ts) x). rewrite encs_app, encs_one, cv_enc. cbn [enc tok]. rewrite firstn_length_le by auto. rewrite <- !app_assoc. do 3 f_equal. change (concat (map enc (firstn (length ts) x))) with (encs (firstn (length ts) x)). rewrite <- encs_app, firstn_skipn. auto.
  - cbn [mangle erase fst snd]. rewrite encs_one, cv_enc. auto.
  - reflexivity.
  - reflexivity.
  - cbn [mangle erase]. rewrite IHp. destruct (erase md true inf vs p) as [x v1]. cbn [fst snd]. rewrite IHc. destruct (erase md true inf v1 c) as [y v2]. cbn [fst snd]. f_equal. destruct inq; rewrite ?encs_one, ?encs_app; auto. cbn [enc tok]. change (concat (map enc (x ++ y))) with (encs (x ++ y)). rewrite encs_app, <- !app_assoc. auto.
Qed.
(** what is kept is well formed *)
Definition gen (md : mode) (g : generic) : generic := fun k n => gp md && g k n.
Lemma cv_wf : forall g md inf q t, wfn g (cv md inf q t) = wfn g t.
Proof. intros g [[|] gp] [|] [[|] [|] [|] [|]] t; reflexivity. Qed.
Definition kept (md : mode) (g : generic) (t : ty) : Prop := forall inq inf vs, wf g t = true -> forallb (wfn (gen md g)) (fst (erase md inq inf vs t)) = true.
Lemma kepts : forall md g l, Forall (kept md g) l -> forall inq inf vs, forallb (wf g) l = true -> forallb (wfn (gen md g)) (fst (erases md inq inf vs l)) = true.
Proof.
  induction l as [|x l IH]; intros F inq inf vs W; auto. inversion F as [|? ? F1 F2]; subst. cbn [forallb] in W. apply andb_prop in W. destruct W as [W1 W2]. rewrite erases_cons. specialize (F1 inq inf vs W1). destruct (erase md inq inf vs x) as [a v1]. specialize (IH F2 inq inf v1 W2). destruct (erases md inq inf v1 l) as [b v2]. cbn [fst] in *. rewrite forallb_app, F1, IH. auto.
Qed.
Lemma onhd_wf : forall g f l, (forall x, wfn g x = true -> wfn g (f x) = true) -> forallb (wfn g) l = true -> forallb (wfn g) (onhd f l) = true.
Proof. intros g f [|x l] H W; auto. cbn [onhd forallb] in *. apply andb_prop in W. rewrite H; tauto. Qed.
Lemma forallb_firstn : forall (A : Type) (p : A -> bool) n l, forallb p l = true -> forallb p (firstn n l) = true.
Proof. induction n as [|n IH]; intros [|x l] H; auto. cbn [firstn forallb] in *. apply andb_prop in H. rewrite (proj1 H), IH; tauto. Qed.
Lemma forallb_skipn : forall (A : Type) (p : A -> bool) n l, forallb p l = true -> forallb p (skipn n l) = true.
Proof. induction n as [|n IH]; intros [|x l] H; auto. cbn [skipn forallb] in *. apply andb_prop in H. apply IH. tauto. Qed.
Lemma poly_wf : forall g d f v a u, wfn g (NPoly d f v a u) = forallb (fun a => name_ok (fst a) && wfn g (snd a)) a && wfn g u.
Proof. reflexivity. Qed.
Lemma all_kept : forall md g, builtin_ok g = true -> forall t, kept md g t.
Proof.
  intros md g Bu. induction t as [q|q k|q t IH|q d t IH|q t IH|fa asr rs ps IHa IHr IHp|k q n ps IHp|q ts IHt|q|q|q|p c IHp IHc] using ty_ind2; intros inq inf vs W; cbn [wf] in W.
  - cbn [erase fst forallb]. rewrite cv_wf. auto.
  - cbn [erase fst forallb]. rewrite cv_wf. cbn [wfn]. rewrite W. auto.
  - cbn [erase]. specialize (IH inq false vs W). destruct (erase md inq false vs t) as [l v]. cbn [fst] in *. apply onhd_wf; auto. intros x X. rewrite cv_wf. destruct (isfun t); auto.
  - cbn [erase]. specialize (IH inq false vs W). destruct (erase md inq false vs t) as [l v]. cbn [fst] in *. apply onhd_wf; auto. intros x X. rewrite cv_wf. auto.
  - cbn [erase]. specialize (IH inq false vs W). destruct (erase md inq false vs t) as [l v]. cbn [fst] in *. apply onhd_wf; auto. intros x X. rewrite cv_wf. auto.
  - rewrite erase_fun. cbv zeta. apply andb_prop in W. destruct W as [W Wp]. apply andb_prop in W. destruct W as [Wa Wr]. pose proof (kepts md g rs IHr inq true (decl0 md vs fa asr) Wr) as R. destruct (erases md inq true (decl0 md vs fa asr) rs) as [x v1]. pose proof (kepts md g ps IHp inq true v1 Wp) as P. destruct (erases md inq true v1 ps) as [y v2]. cbn [fst] in *.
    assert (F : wfn (gen md g) (NFun (if none rs then [NVoid] else x) y) = true) by (cbn [wfn]; rewrite P; destruct (none rs); rewrite ?R; auto). cbn [forallb]. destruct (polym md fa asr); rewrite andb_true_r; auto. rewrite poly_wf, F, andb_true_r.
    unfold asrs. rewrite forallb_forall in *. intros z Z1. apply in_map_iff in Z1. destruct Z1 as (a & <- & Ia). cbn [fst snd]. specialize (Wa a Ia). apply andb_prop in Wa. rewrite (proj1 Wa). rewrite Forall_forall in IHa. specialize (IHa a Ia false false (decl0 md vs fa asr) (proj2 Wa)). destruct (fst (erase md false false (decl0 md vs fa asr) (snd a))) as [|h tl]; auto. cbn [hd forallb] in *. apply andb_prop in IHa. rewrite (proj1 IHa). auto.
  - rewrite erase_inst. apply andb_prop in W. destruct W as [W Wp]. apply andb_prop in W. destruct W as [Wn Wg]. destruct (match k with TypeI => vfind vs n | _ => None end); [cbn [fst forallb]; rewrite cv_wf; auto|]. pose proof (kepts md g ps IHp inq false vs Wp) as P. pose proof (proj1 (sizes md ps inq false vs)) as S. destruct (erases md inq false vs ps) as [x v] eqn:E. cbn [fst] in *.
    assert (Ge : gen md g k n = gp md && g k n) by reflexivity. destruct (gp md) eqn:G; cbn [fst forallb]; rewrite cv_wf, andb_true_r; cbn [wfn]; rewrite Wn, Ge; [|reflexivity]. rewrite P. cbn [andb]. rewrite andb_true_r. apply eqb_prop in Wg. rewrite <- Wg. destruct ps as [|p ps]; [cbn in E; injection E as <- <-; reflexivity|]. destruct x; [cbn in S; lia|reflexivity].
  - rewrite erase_tuple. pose proof (kepts md g ts IHt inq false vs W) as P. destruct (erases md inq false vs ts) as [x v]. cbn [fst forallb] in *. rewrite cv_wf. cbn [wfn]. rewrite forallb_firstn, forallb_skipn; auto.
  - cbn [erase fst forallb]. rewrite cv_wf. cbn [wfn forallb none]. unfold gen. unfold builtin_ok in Bu. destruct (g TypeI #"__builtin_va_list"); [discriminate|]. rewrite andb_false_r. reflexivity.
  - reflexivity.
  - reflexivity.
  - cbn [erase]. apply andb_prop in W. specialize (IHp true inf vs (proj1 W)). destruct (erase md true inf vs p) as [x v1]. specialize (IHc true inf v1 (proj2 W)). destruct (erase md true inf v1 c) as [y v2]. cbn [fst] in *. destruct inq; cbn [forallb wfn]; rewrite forallb_app, IHp, IHc; auto.
Qed.
(** types without forall *)
Fixpoint chain (md : mode) (param : bool) (t : ty) : list nt := match t with Qual p c => chain md param p ++ chain md param c | _ => [norm md param t] end.
Lemma norm_qual : forall md param p c, norm md param (Qual p c) = NQual (chain md param p ++ chain md param c).
Proof.
  intros md param p c. assert (H : forall t, (fix chain (t : ty) : list nt := match t with Qual p c => chain p ++ chain c | _ => [norm md param t] end) t = chain md param t).
  { induction t; cbn [chain]; auto. f_equal; auto. }
  cbn [norm]. rewrite !H. auto.
Qed.
Lemma map_none : forall {A B} (f : A -> B) l (d : list B), (if none l then d else map f l) = match l with [] => d | _ => map f l end.
Proof. intros A B f [|x l] d; auto. Qed.
Definition plain md (t : ty) := tm md = true \/ mono t = true.
Definition eachok (md : mode) (inq : bool) (t : ty) := forall inf, erase md inq inf [] t = ([norm md inf t], []).
Lemma eachoks : forall md inq l, Forall (eachok md inq) l -> forall inf, erases md inq inf [] l = (map (norm md inf) l, []).
Proof.
  induction l as [|x l IH]; intros F inf; auto. inversion F as [|? ? F1 F2]; subst. rewrite erases_cons, F1, IH; auto.
Qed.
Lemma Forall_imp2 : forall (P : ty -> Prop) (q : ty -> bool) md l, Forall (fun t => plain md t -> q t = true -> P t) l -> (tm md = true \/ forallb mono l = true) -> forallb q l = true -> Forall P l.
Proof.
  intros P q md l F M W. rewrite Forall_forall in *. rewrite forallb_forall in W. intros x I. apply F; auto. destruct M as [M|M]; [left; auto|right]. rewrite forallb_forall in M. auto.
Qed.
Lemma polym_plain : forall md fa asr rs ps, plain md (Fun fa asr rs ps) -> polym md fa asr = false /\ (tm md = true \/ forallb mono rs = true) /\ (tm md = true \/ forallb mono ps = true).
Proof.
  intros md fa asr rs ps [H|H]; unfold polym; [rewrite H; auto|]. cbn [mono] in H. apply andb_prop in H. destruct H as [H H3]. apply andb_prop in H. destruct H as [H H2]. rewrite H, andb_false_r. auto.
Qed.
Lemma norm_fun : forall md inf fa asr rs ps, norm md inf (Fun fa asr rs ps) = NFun (if none rs then [NVoid] else map (norm md true) rs) (map (norm md true) ps).
Proof. intros. cbn [norm]. rewrite map_none. auto. Qed.
Lemma erase_norm : forall md (inq : bool) t, plain md t -> (if inq then noqual t else qualok t) = true -> eachok md inq t.
Proof.
  intros md.
  assert (M : forall inq (ok : ty -> bool), (forall q t, ok (Ptr q t) = ok t) -> (forall q d t, ok (Arr q d t) = ok t) -> (forall q t, ok (Ref q t) = ok t) -> (forall fa asr rs ps, ok (Fun fa asr rs ps) = forallb ok rs && forallb ok ps) ->
    (forall k q n ps, ok (Inst k q n ps) = forallb ok ps) -> (forall q ts, ok (Tuple q ts) = forallb ok ts) -> (forall p c, ok (Qual p c) = true -> plain md (Qual p c) -> eachok md inq (Qual p c)) -> forall t, plain md t -> ok t = true -> eachok md inq t).
  { intros inq ok O1 O2 O3 O4 O5 O6 O7. induction t as [q|q k|q t IH|q d t IH|q t IH|fa asr rs ps IHa IHr IHp|k q n ps IHp|q ts IHt|q|q|q|p c IHp IHc] using ty_ind2; intros Pl K inf; try reflexivity.
    - cbn [erase norm]. rewrite O1 in K. rewrite IH; auto.
    - cbn [erase norm]. rewrite O2 in K. rewrite IH; auto.
    - cbn [erase norm]. rewrite O3 in K. rewrite IH; auto.
    - rewrite O4 in K. apply andb_prop in K. destruct (polym_plain _ _ _ _ _ Pl) as (Po & Mr & Mp). rewrite erase_fun, norm_fun. unfold decl0. rewrite Po. cbv zeta. rewrite (eachoks md inq rs), (eachoks md inq ps); auto; [exact (Forall_imp2 _ ok md ps IHp Mp (proj2 K))|exact (Forall_imp2 _ ok md rs IHr Mr (proj1 K))].
    - rewrite O5 in K. rewrite erase_inst. cbn [vfind norm]. replace (match k with TypeI => None | _ => None end) with (@None kind) by (destruct k; auto). rewrite (eachoks md inq ps); [destruct (gp md); auto|]. exact (Forall_imp2 _ ok md ps IHp Pl K).
    - rewrite O6 in K. rewrite erase_tuple. cbn [norm]. rewrite (eachoks md inq ts); [|exact (Forall_imp2 _ ok md ts IHt Pl K)]. rewrite <- (map_length (norm md false) ts), firstn_all, skipn_all. auto.
    - apply O7; auto. }
  assert (N : forall t, plain md t -> noqual t = true -> eachok md true t) by (apply (M true noqual); auto; discriminate).
  assert (C : forall t inf, plain md t -> chainok t = true -> erase md true inf [] t = (chain md inf t, [])).
  { induction t; intros inf Pl K; try (apply N; auto; fail). cbn [erase chain chainok] in *. apply andb_prop in K. assert (P12 : plain md t1 /\ plain md t2) by (destruct Pl as [|Pl]; [split; left; auto|]; cbn [mono] in Pl; apply andb_prop in Pl; split; right; tauto). rewrite IHt1, IHt2; tauto. }
  intros [|]; auto. apply (M false qualok); auto. intros p c K Pl inf. rewrite norm_qual. cbn [erase qualok] in *. apply andb_prop in K. assert (P12 : plain md p /\ plain md c) by (destruct Pl as [|Pl]; [split; left; auto|]; cbn [mono] in Pl; apply andb_prop in Pl; split; right; tauto). rewrite !C; tauto.
Qed.
(** declarations *)
Definition linkstr (over : bool) (l : linkage) : str := if over then match l with Plain => [] | AutoGen => #"autogen__" | Intrinsic => #"intrinsic__" end else [].
Lemma link_heads : forall over l, heads nodig (linkstr over l).
Proof. intros [|] [| |]; reflexivity. Qed.
Lemma link_inj : forall over a b, linkstr over a = linkstr over b <-> (over = true -> a = b).
Proof. intros [|] [| |] [| |]; cbn; split; intros H; try discriminate; auto; try (specialize (H eq_refl); discriminate). Qed.
Lemma decl_enc : forall md over d, mangle_decl md over d = #"_X" ++ lenname (out_name (dname d)) ++ encs (erased md (dty d)) ++ linkstr over (dlink d).
Proof. intros. unfold mangle_decl, erased. rewrite mangle_enc. auto. Qed.
Lemma decl_iff : forall md over g d1 d2, builtin_ok g = true -> wfd g d1 = true -> wfd g d2 = true ->
  (mangle_decl md over d1 = mangle_decl md over d2 <-> out_name (dname d1) = out_name (dname d2) /\ erased md (dty d1) = erased md (dty d2) /\ (over = true -> dlink d1 = dlink d2)).
Proof.
  intros md over g d1 d2 B W1 W2. rewrite !decl_enc, <- link_inj. unfold wfd in *. apply andb_prop in W1, W2. destruct W1 as [N1 W1], W2 as [N2 W2]. pose proof (all_kept md g B _ false false [] W1) as K1. pose proof (all_kept md g B _ false false [] W2) as K2. pose proof (proj2 (all_sized md (dty d1) false false []) eq_refl) as S1. pose proof (proj2 (all_sized md (dty d2) false false []) eq_refl) as S2. fold (erased md (dty d1)) in *. fold (erased md (dty d2)) in *.
  destruct (erased md (dty d1)) as [|a [|]]; try discriminate S1. destruct (erased md (dty d2)) as [|b [|]]; try discriminate S2. cbn [forallb] in K1, K2. rewrite andb_true_r in K1, K2. rewrite !encs_one. split.
  - intros H. apply app_inv_head in H. apply lenname_split in H; auto; try (apply enc_heads; eapply wfn_small; eassumption). destruct H as [H1 H]. apply (enc_prefix (gen md g)) in H; auto using link_heads. destruct H as [-> ->]. auto.
  - intros (-> & E & ->). injection E as ->. auto.
Qed.
(** forall clauses with one variable of a kind *)
Fixpoint un (t : nt) : nt :=
  match t with
  | NQ x u => NQ x (un u)
  | NPoly d f v asr u => NPoly d f v (map (fun a => (fst a, un (snd a))) asr) (un u)
  | NPtr u => NPtr (un u)
  | NArr u => NArr (un u)
  | NFun rs ps => NFun (map un rs) (map un ps)
  | NInst k n ps => NInst k n (map un ps)
  | NVar k => NInst TypeI (canon k) []
  | NTuple ts => NTuple (map un ts)
  | NQual cs => NQual (map un cs)
  | NVoid | NBasic _ | NZero | NOne => t
  end.
Lemma cv_un : forall md inf q t, un (cv md inf q t) = cv md inf q (un t).
Proof. intros [[|] gp] [|] [[|] [|] [|] [|]] t; reflexivity. Qed.
Lemma onhd_un : forall f h l, (forall x, un (f x) = h (un x)) -> map un (onhd f l) = onhd h (map un l).
Proof. intros f h [|x l] H; auto. cbn [onhd map]. rewrite H. auto. Qed.
Lemma isfun_rename : forall r t, isfun (rename r t) = isfun t.
Proof. destruct t; auto. Qed.
Definition vren (vs : vars) (n : str) : str := match vfind vs n with Some k => canon k | None => n end.
Definition renamed (md : mode) (g : generic) (vs : vars) (t : ty) : Prop := forall inq inf, mono t = true -> wf g t = true ->
  snd (erase md inq inf vs t) = vs /\ erase md inq inf [] (rename (vren vs) t) = (map un (fst (erase md inq inf vs t)), []).
Lemma renameds : forall md g vs l, Forall (renamed md g vs) l -> forall inq inf, forallb mono l = true -> forallb (wf g) l = true ->
  snd (erases md inq inf vs l) = vs /\ erases md inq inf [] (map (rename (vren vs)) l) = (map un (fst (erases md inq inf vs l)), []).
Proof.
  induction l as [|x l IH]; intros F inq inf M W; auto. inversion F as [|? ? F1 F2]; subst. cbn [forallb map] in *. apply andb_prop in M, W. destruct M as [M1 M2], W as [W1 W2]. rewrite !erases_cons. destruct (F1 inq inf M1 W1) as [A B]. rewrite B. destruct (erase md inq inf vs x) as [a v1]. cbn [fst snd] in *. subst v1. destruct (IH F2 inq inf M2 W2) as [A2 B2]. rewrite B2. destruct (erases md inq inf vs l) as [b v2]. cbn [fst snd] in *. rewrite map_app. auto.
Qed.
Lemma none_map : forall {A B} (f : A -> B) l, none (map f l) = none l.
Proof. destruct l; auto. Qed.
Lemma all_renamed : forall md g vs, (forall n, vfind vs n <> None -> g TypeI n = false) -> forall t, renamed md g vs t.
Proof.
  intros md g vs V. induction t as [q|q k|q t IH|q d t IH|q t IH|fa asr rs ps IHa IHr IHp|k q n ps IHp|q ts IHt|q|q|q|p c IHp IHc] using ty_ind2; intros inq inf M W; cbn [mono wf] in M, W.
  - cbn [rename erase fst snd map]. rewrite cv_un. auto.
  - cbn [rename erase fst snd map]. rewrite cv_un. auto.
  - cbn [rename erase]. destruct (IH inq false M W) as [A B]. rewrite B. destruct (erase md inq false vs t) as [l v]. cbn [fst snd] in *. split; auto. f_equal. rewrite isfun_rename. symmetry. apply onhd_un. intros x. rewrite cv_un. destruct (isfun t); auto.
  - cbn [rename erase]. destruct (IH inq false M W) as [A B]. rewrite B. destruct (erase md inq false vs t) as [l v]. cbn [fst snd] in *. split; auto. f_equal. symmetry. apply onhd_un. intros x. rewrite cv_un. auto.
  - cbn [rename erase]. destruct (IH inq false M W) as [A B]. rewrite B. destruct (erase md inq false vs t) as [l v]. cbn [fst snd] in *. split; auto. f_equal. symmetry. apply onhd_un. intros x. rewrite cv_un. auto.
  - apply andb_prop in M. destruct M as [M M3]. apply andb_prop in M. destruct M as [M M2]. apply andb_prop in M. destruct M as [Mf Ma]. destruct fa; [|discriminate Mf]. destruct asr; [|discriminate Ma]. apply andb_prop in W. destruct W as [W W3]. apply andb_prop in W. destruct W as [_ W2].
    cbn [rename map]. rewrite !erase_fun. unfold decl0, polym. cbn [none andb negb]. rewrite andb_false_r. cbv zeta. destruct (renameds md g vs rs IHr inq true M2 W2) as [A B]. rewrite B. destruct (erases md inq true vs rs) as [x v]. cbn [fst snd] in *. subst v. destruct (renameds md g vs ps IHp inq true M3 W3) as [A B2]. rewrite B2. destruct (erases md inq true vs ps) as [y v]. cbn [fst snd] in *. split; auto. f_equal. cbn [map un]. rewrite none_map. destruct (none rs); auto.
  - apply andb_prop in W. destruct W as [W Wp]. apply andb_prop in W. destruct W as [Wn Wg]. cbn [rename]. rewrite !erase_inst. cbn [vfind]. replace (match k with TypeI => @None kind | _ => None end) with (@None kind) by (destruct k; auto). destruct (renameds md g vs ps IHp inq false M Wp) as [A B]. rewrite B. destruct (match k with TypeI => vfind vs n | _ => None end) as [kd|] eqn:E.
    + destruct k; try discriminate E. assert (G : g TypeI n = false) by (apply V; congruence). rewrite G in Wg. destruct ps as [|p ps]; [|discriminate Wg]. cbn [fst snd map]. rewrite cv_un. cbn [un]. unfold vren. rewrite E. cbn [erases fst map]. split; auto. destruct (gp md); auto.
    + assert (N : (match k with TypeI => vren vs n | _ => n end) = n) by (destruct k; auto; unfold vren; rewrite E; auto). rewrite N. destruct (erases md inq false vs ps) as [x v]. cbn [fst snd] in *. destruct (gp md); cbn [fst snd map]; rewrite cv_un; auto.
  - cbn [rename]. rewrite !erase_tuple. destruct (renameds md g vs ts IHt inq false M W) as [A B]. rewrite B. destruct (erases md inq false vs ts) as [x v]. cbn [fst snd] in *. split; auto. f_equal. rewrite map_length. cbn [map]. rewrite cv_un. cbn [un]. rewrite firstn_map, skipn_map. auto.
  - cbn [rename erase fst snd map]. rewrite cv_un. auto.
  - auto.
  - auto.
  - cbn [rename erase]. apply andb_prop in M, W. destruct M as [M1 M2], W as [W1 W2]. destruct (IHp true inf M1 W1) as [A B]. rewrite B. destruct (erase md true inf vs p) as [x v]. cbn [fst snd] in *. subst v. destruct (IHc true inf M2 W2) as [A B2]. rewrite B2. destruct (erase md true inf vs c) as [y v]. cbn [fst snd] in *. split; auto. f_equal. rewrite <- map_app. destruct inq; auto.
Qed.
Lemma rename_same : forall r (ok : ty -> bool), (forall q, ok (Void q) = true) -> (forall q k, ok (Basic q k) = true) -> (forall q, ok (VarArgs q) = true) -> (forall q, ok (Zero q) = true) -> (forall q, ok (One q) = true) ->
  (forall q t, ok (Ptr q t) = ok t) -> (forall q d t, ok (Arr q d t) = ok t) -> (forall q t, ok (Ref q t) = ok t) -> (forall fa asr rs ps, ok (Fun fa asr rs ps) = forallb ok rs && forallb ok ps) ->
  (forall k q n ps, ok (Inst k q n ps) = forallb ok ps) -> (forall q ts, ok (Tuple q ts) = forallb ok ts) -> (forall p c, ok (rename r (Qual p c)) = ok (Qual p c)) -> forall t, ok (rename r t) = ok t.
Proof.
  intros r ok O1 O2 O3 O4 O5 O6 O7 O8 O9 O10 O11 O12.
  assert (L : forall l, Forall (fun t => ok (rename r t) = ok t) l -> forallb ok (map (rename r) l) = forallb ok l) by (induction l as [|x l IH]; intros F; auto; inversion F; subst; cbn [map forallb]; rewrite IH by auto; congruence).
  induction t as [q|q k|q t IH|q d t IH|q t IH|fa asr rs ps IHa IHr IHp|k q n ps IHp|q ts IHt|q|q|q|p c IHp IHc] using ty_ind2; auto; cbn [rename].
  - rewrite !O6. auto.
  - rewrite !O7. auto.
  - rewrite !O8. auto.
  - rewrite !O9, !L; auto.
  - rewrite !O10, L; auto.
  - rewrite !O11, L; auto.
Qed.
Lemma rename_noqual : forall r t, noqual (rename r t) = noqual t.
Proof. intros r. apply rename_same; auto. Qed.
Lemma rename_chainok : forall r t, chainok (rename r t) = chainok t.
Proof. intros r. induction t; match goal with |- chainok (rename _ ?x) = _ => try exact (rename_noqual r x) end. cbn [rename chainok]. congruence. Qed.
Lemma rename_qualok : forall r t, qualok (rename r t) = qualok t.
Proof. intros r. apply rename_same; auto. intros p c. cbn [rename qualok]. rewrite !rename_chainok. auto. Qed.
Lemma rename_mono : forall r t, mono t = true -> mono (rename r t) = true.
Proof.
  intros r. assert (L : forall l, Forall (fun t => mono t = true -> mono (rename r t) = true) l -> forallb mono l = true -> forallb mono (map (rename r) l) = true).
  { induction l as [|x l IH]; intros F M; auto. inversion F; subst. cbn [map forallb] in *. apply andb_prop in M. rewrite IH by tauto. rewrite andb_true_r. tauto. }
  induction t as [q|q k|q t IH|q d t IH|q t IH|fa asr rs ps IHa IHr IHp|k q n ps IHp|q ts IHt|q|q|q|p c IHp IHc] using ty_ind2; cbn [rename mono]; auto; intros M.
  - apply andb_prop in M. destruct M as [M M3]. apply andb_prop in M. destruct M as [M M2]. rewrite none_map, M. rewrite (L rs), (L ps); auto.
  - apply andb_prop in M. rewrite IHp, IHc; tauto.
Qed.
(** canonical names are not used by programs *)
Definition Inj (g : generic) (a : nt) := forall b, wfn g a = true -> wfn g b = true -> un a = un b -> a = b.
Lemma inj_list : forall g l, Forall (Inj g) l -> forall l', forallb (wfn g) l = true -> forallb (wfn g) l' = true -> map un l = map un l' -> l = l'.
Proof.
  induction l as [|x l IH]; intros F [|y l'] W W' H; try discriminate; auto. inversion F; subst. cbn [map forallb] in *. apply andb_prop in W, W'. injection H as U1 U2. f_equal; [|apply IH; tauto]. match goal with A : Inj g x |- _ => apply A; tauto end.
Qed.
Lemma inj_asr : forall g l, Forall (fun a : str * nt => Inj g (snd a)) l -> forall l', forallb (fun a => name_ok (fst a) && wfn g (snd a)) l = true -> forallb (fun a => name_ok (fst a) && wfn g (snd a)) l' = true -> map (fun a => (fst a, un (snd a))) l = map (fun a => (fst a, un (snd a))) l' -> l = l'.
Proof.
  induction l as [|[n x] l IH]; intros F [|[m y] l'] W W' H; try discriminate; auto. inversion F; subst. cbn [map forallb fst snd] in *. apply andb_prop in W, W'. destruct W as [W1 W2], W' as [W1' W2']. apply andb_prop in W1, W1'. injection H as -> U1 U2. f_equal; [|apply IH; tauto]. match goal with A : Inj g x |- _ => rewrite (A y); tauto end.
Qed.
Lemma canon_bad : forall k n, name_ok n = true -> canon k = n -> False.
Proof. intros [| |] n N <-; discriminate N. Qed.
Lemma un_inj : forall g a, Inj g a.
Proof.
  intros g. induction a as [q a IH|d f v asr a IHs IH| |k|a IH|a IH|rs ps IHr IHp|k n ps IHp|k|ts IHt| | |cs IHc] using nt_ind2; intros b Wa Wb H; destruct b; try discriminate H; cbn [wfn un] in *; auto.
  - injection H as -> H. f_equal. auto.
  - injection H as -> -> -> H1 H2. apply andb_prop in Wa, Wb. f_equal; [eapply inj_asr; eauto; tauto|apply IH; tauto].
  - injection H as H. f_equal. auto.
  - injection H as H. f_equal. auto.
  - injection H as H1 H2. apply andb_prop in Wa, Wb. f_equal; eapply inj_list; eauto; tauto.
  - injection H as -> -> H. apply andb_prop in Wa, Wb. f_equal. eapply inj_list; eauto; tauto.
  - exfalso. injection H as -> -> H. apply andb_prop in Wa. destruct Wa as [Wa _]. apply andb_prop in Wa. eapply (canon_bad k0); [apply Wa|reflexivity].
  - exfalso. injection H as <- <- H. apply andb_prop in Wb. destruct Wb as [Wb _]. apply andb_prop in Wb. eapply (canon_bad k); [apply Wb|reflexivity].
  - injection H as H. destruct k, k0; try discriminate H; auto.
  - injection H as H. f_equal. eapply inj_list; eauto.
  - injection H as H. f_equal. eapply inj_list; eauto.
Qed.
Lemma kcount_in : forall k fa, NoDup (map snd fa) -> kcount k fa = if existsb (fun p => match snd p, k with Dtype, Dtype | Ftype, Ftype | Ttype, Ttype => true | _, _ => false end) fa then 1 else 0.
Proof.
  unfold kcount. induction fa as [|[n j] fa IH]; cbn [map filter existsb snd length]; intros N; auto. inversion N as [|? ? N1 N2]; subst. specialize (IH N2). destruct (match j, k with Dtype, Dtype | Ftype, Ftype | Ttype, Ttype => true | _, _ => false end) eqn:E; cbn [orb length]; auto. rewrite IH. destruct (existsb _ fa) eqn:X; auto. exfalso. apply N1. apply existsb_exists in X. destruct X as ([m i] & X1 & X2). cbn [snd] in X2. apply in_map_iff. exists (m, i). split; auto. cbn [snd]. destruct i, j, k; try discriminate; auto.
Qed.
Lemma kex : forall k (fa : list (str * kind)), existsb (fun p => match snd p, k with Dtype, Dtype | Ftype, Ftype | Ttype, Ttype => true | _, _ => false end) fa = true <-> In k (map snd fa).
Proof.
  intros k fa. rewrite existsb_exists, in_map_iff. split; intros ([m i] & A & B); exists (m, i); cbn [snd] in *; split; auto; destruct i, k; try discriminate; auto.
Qed.
Lemma kcount_iff : forall fa1 fa2, NoDup (map snd fa1) -> NoDup (map snd fa2) -> ((forall k, kcount k fa1 = kcount k fa2) <-> forall k, In k (map snd fa1) <-> In k (map snd fa2)).
Proof.
  intros fa1 fa2 N1 N2. split; intros H k; specialize (H k).
  - rewrite !kcount_in in H by auto. rewrite <- !kex. destruct (existsb _ fa1), (existsb _ fa2); try discriminate H; tauto.
  - rewrite !kcount_in by auto. rewrite <- !kex in H. destruct (existsb _ fa1), (existsb _ fa2); auto; destruct H as [H1 H2]; exfalso; assert (X : false = true) by auto; discriminate X.
Qed.
Definition canonF md fa rs ps := norm md false (Fun [] [] (map (rename (to_canon fa)) rs) (map (rename (to_canon fa)) ps)).
Definition canonA md fa (asr : list (str * ty)) := map (fun a => (out_name (fst a), norm md false (rename (to_canon fa) (snd a)))) asr.
Lemma renamed_norm : forall md g vs t inf, (forall n, vfind vs n <> None -> g TypeI n = false) -> mono t = true -> qualok t = true -> wf g t = true ->
  map un (fst (erase md false inf vs t)) = [norm md inf (rename (vren vs) t)].
Proof.
  intros md g vs t inf V M Q W. destruct (all_renamed md g vs V t false inf M W) as [_ B]. rewrite (erase_norm md false (rename (vren vs) t)) in B; [congruence|right; apply rename_mono; auto|rewrite rename_qualok; auto].
Qed.
Lemma renamed_norms : forall md g vs l inf, (forall n, vfind vs n <> None -> g TypeI n = false) -> forallb mono l = true -> forallb qualok l = true -> forallb (wf g) l = true ->
  snd (erases md false inf vs l) = vs /\ map un (fst (erases md false inf vs l)) = map (norm md inf) (map (rename (vren vs)) l).
Proof.
  intros md g vs l inf V M Q W. split; [eapply (renameds md g vs l); eauto; apply Forall_forall; intros; apply all_renamed; auto|]. destruct (renameds md g vs l) with (inq := false) (inf := inf) as [_ B]; auto; [apply Forall_forall; intros; apply all_renamed; auto|].
  rewrite (eachoks md false (map (rename (vren vs)) l)) in B; [congruence|]. apply Forall_forall. intros x X. apply in_map_iff in X. destruct X as (t & <- & I). rewrite forallb_forall in M, Q. apply erase_norm; [right; apply rename_mono; auto|rewrite rename_qualok; auto].
Qed.
Lemma vfind_in : forall vs n, vfind vs n <> None -> In n (map fst vs).
Proof.
  induction vs as [|[m k] vs IH]; cbn [vfind map fst]; intros n H; [congruence|]. destruct (eqs m n) eqn:E; [left; apply eqs_iff; auto|right; auto].
Qed.
Lemma fun_un : forall md g fa asr rs ps, tm md = false -> prenex g (Fun fa asr rs ps) -> wf g (Fun fa asr rs ps) = true -> exists A F,
  erased md (Fun fa asr rs ps) = [if none fa && none asr then F else NPoly (kcount Dtype fa) (kcount Ftype fa) (kcount Ttype fa) A F] /\ map (fun a => (fst a, un (snd a))) A = canonA md fa asr /\ un F = canonF md fa rs ps.
Proof.
  intros md g fa asr rs ps T (N & G & Pa & Pr & Pp) W. cbn [wf] in W. apply andb_prop in W. destruct W as [W Wp]. apply andb_prop in W. destruct W as [Wa Wr]. apply andb_prop in Pr, Pp. destruct Pr as [Mr Qr], Pp as [Mp Qp].
  assert (V : forall n, vfind (rev fa) n <> None -> g TypeI n = false). { intros n H. apply G. apply vfind_in in H. rewrite map_rev in H. apply in_rev. auto. }
  assert (D : decl0 md [] fa asr = rev fa). { unfold decl0, polym, declare. rewrite T, app_nil_r. cbn [negb andb]. destruct fa; auto. destruct asr; auto. }
  assert (P : polym md fa asr = negb (none fa && none asr)) by (unfold polym; rewrite T; auto).
  unfold erased. rewrite erase_fun, D, P. cbv zeta. destruct (renamed_norms md g (rev fa) rs true V Mr Qr Wr) as [R1 R2]. destruct (erases md false true (rev fa) rs) as [x v]. cbn [fst snd] in *. subst v. destruct (renamed_norms md g (rev fa) ps true V Mp Qp Wp) as [P1 P2]. destruct (erases md false true (rev fa) ps) as [y v]. cbn [fst snd] in *.
  exists (asrs md (rev fa) asr), (NFun (if none rs then [NVoid] else x) y). split; [destruct (none fa && none asr); auto|]. split.
  - unfold asrs, canonA. rewrite map_map. apply map_ext_in. intros a Ia. cbn [fst snd]. f_equal. rewrite forallb_forall in Pa, Wa. specialize (Pa a Ia). specialize (Wa a Ia). apply andb_prop in Pa, Wa. assert (E := renamed_norm md g (rev fa) (snd a) false V (proj1 Pa) (proj2 Pa) (proj2 Wa)). destruct (fst (erase md false false (rev fa) (snd a))) as [|h tl]; try discriminate E. cbn [hd map] in *. change (to_canon fa) with (vren (rev fa)). congruence.
  - unfold canonF. rewrite norm_fun. change (to_canon fa) with (vren (rev fa)). rewrite none_map. cbn [un]. rewrite P2. destruct (none rs); auto. rewrite R2. auto.
Qed.
Lemma none_len : forall {A B} (l : list A) (l' : list B), length l = length l' -> none l = none l'.
Proof. intros A B [|] [|] H; try discriminate; auto. Qed.
Lemma forall_iff : forall md g t1 t2, tm md = false -> builtin_ok g = true -> prenex g t1 -> prenex g t2 -> wf g t1 = true -> wf g t2 = true -> (erased md t1 = erased md t2 <-> same_forall md t1 t2).
Proof.
  intros md g t1 t2 T B P1 P2 W1 W2. destruct t1 as [| | | | |fa1 as1 rs1 ps1| | | | | |]; try contradiction P1. destruct t2 as [| | | | |fa2 as2 rs2 ps2| | | | | |]; try contradiction P2.
  destruct (fun_un md g fa1 as1 rs1 ps1 T P1 W1) as (A1 & F1 & E1 & U1 & V1). destruct (fun_un md g fa2 as2 rs2 ps2 T P2 W2) as (A2 & F2 & E2 & U2 & V2).
  pose proof (all_kept md g B _ false false [] W1) as K1. pose proof (all_kept md g B _ false false [] W2) as K2. fold (erased md (Fun fa1 as1 rs1 ps1)) in K1. fold (erased md (Fun fa2 as2 rs2 ps2)) in K2. rewrite E1 in *. rewrite E2 in *. unfold same_forall. fold (canonA md fa1 as1) (canonA md fa2 as2) (canonF md fa1 rs1 ps1) (canonF md fa2 rs2 ps2). rewrite <- U1, <- U2, <- V1, <- V2. rewrite <- kcount_iff by (apply P1 || apply P2).
  assert (L1 : length A1 = length as1) by (rewrite <- (map_length (fun a => (fst a, un (snd a))) A1), U1; apply map_length). assert (L2 : length A2 = length as2) by (rewrite <- (map_length (fun a => (fst a, un (snd a))) A2), U2; apply map_length).
  assert (LF : forall (fa : list (str * kind)), none fa = true <-> forall k, kcount k fa = 0). { intros fa. split; [destruct fa; [auto|discriminate]|]. intros H. destruct fa as [|[n k] fa]; auto. specialize (H k). unfold kcount in H. destruct k; discriminate H. }
  split.
  - intros H. injection H as H. destruct (none fa1 && none as1) eqn:N1, (none fa2 && none as2) eqn:N2.
    + apply andb_prop in N1, N2. destruct N1 as [N1 M1], N2 as [N2 M2]. assert (F := proj1 (LF fa1) N1). assert (F' := proj1 (LF fa2) N2). destruct as1, as2; try discriminate. destruct A1, A2; try discriminate. subst F2. split; [|auto]. intros k. congruence.
    + subst F1. cbn [un] in V1. unfold canonF in V1. rewrite norm_fun in V1. discriminate V1.
    + subst F2. cbn [un] in V2. unfold canonF in V2. rewrite norm_fun in V2. discriminate V2.
    + injection H as C1 C2 C3 C4 C5. subst. split; auto. intros [| |]; auto.
  - intros (Kc & Ha & Hf). assert (NE : none fa1 && none as1 = none fa2 && none as2).
    { assert (NF : none fa1 = none fa2). { destruct (none fa1) eqn:X, (none fa2) eqn:Y; auto; exfalso. - assert (Z0 : none fa2 = true) by (apply LF; intros k; rewrite <- Kc; apply LF; auto). congruence. - assert (Z0 : none fa1 = true) by (apply LF; intros k; rewrite Kc; apply LF; auto). congruence. }
      rewrite NF. f_equal. apply none_len. rewrite <- L1, <- L2. rewrite <- (map_length (fun a => (fst a, un (snd a))) A1), Ha. apply map_length. }
    rewrite NE in *. cbn [forallb] in K1, K2. rewrite andb_true_r in K1, K2. destruct (none fa2 && none as2).
    + f_equal. apply (un_inj (gen md g)); auto.
    + cbn [wfn] in K1, K2. apply andb_prop in K1, K2. rewrite !Kc. do 2 f_equal; [apply (inj_asr (gen md g) A1); try tauto; apply Forall_forall; intros; apply un_inj|apply (un_inj (gen md g)); tauto].
Qed.
