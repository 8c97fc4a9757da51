From Coq Require Import List Bool Arith Lia.
From Verif Require Import GenType.Model GenType.Spec.
Import ListNotations.

Lemma ty_ind' (P : ty -> Prop) :
  (forall q b, P (Base q b)) -> (forall q t, P t -> P (Pointer q t)) -> (forall q st d t, P t -> P (Array q st d t)) ->
  (forall ps va ret, Forall P ps -> P ret -> P (Func ps va ret)) -> (forall q t, P t -> P (Ref q t)) -> forall t, P t.
Proof.
  intros HB HP HA HF HR. fix IH 1. intros [q b|q t|q st d t|ps va ret|q t].
  - apply HB.
  - apply HP, IH.
  - apply HA, IH.
  - apply HF; [|apply IH]. induction ps as [|p ps IHps]; constructor; [apply IH|apply IHps].
  - apply HR, IH.
Qed.

(** qualifiers *)
Definition noqual (l : list tok) : Prop := match l with TQ _ :: _ => False | _ => True end.
Lemma rd_quals_none l : noqual l -> rd_quals l = (noq, l).
Proof. destruct l as [|[]]; cbn; intros H; try reflexivity; destruct H. Qed.
Lemma handleQ_app q l l' : handleQ q l ++ l' = handleQ q (l ++ l').
Proof. destruct q as [[] [] [] []]; reflexivity. Qed.
Lemma rd_handleQ q l : noqual l -> rd_quals (handleQ q l) = (q, l).
Proof. intros H. destruct q as [[] [] [] []]; cbn [handleQ qc qv qr qa rd_quals]; rewrite (rd_quals_none _ H); reflexivity. Qed.

(** equations of the reader *)
Lemma rd_decl_eq f l : rd_decl (S f) l =
  let (q, l) := rd_quals l in
  match l with TBase b :: l => match rd_dcl f l with Some (s, n, l) => Some (apps s (Base q b), n, l) | None => None end | _ => None end.
Proof. reflexivity. Qed.
Definition behind f (s : list step) (n : option name) (l : list tok) := match rd_suffixes f l with Some (s', l) => Some (s ++ s', n, l) | None => None end.
Lemma rd_star f l : rd_dcl (S f) (TStar :: l) = let (q, l) := rd_quals l in match rd_dcl f l with Some (s, n, l) => Some (s ++ [SPtr q], n, l) | None => None end.
Proof. reflexivity. Qed.
Lemma rd_amp f l : rd_dcl (S f) (TAmp :: l) = let (q, l) := rd_quals l in match rd_dcl f l with Some (s, n, l) => Some (s ++ [SRef q], n, l) | None => None end.
Proof. reflexivity. Qed.
Lemma rd_name f n l : rd_dcl (S f) (TName n :: l) = behind f [] (Some n) l.
Proof. reflexivity. Qed.
Lemma rd_paren f l : rd_dcl (S f) (TLP :: TStar :: l) = match rd_dcl f (TStar :: l) with Some (s, n, TRP :: l) => behind f s n l | _ => None end.
Proof. reflexivity. Qed.
Definition abstract (l : list tok) : Prop :=
  match l with TStar :: _ | TAmp :: _ | TName _ :: _ | TQ _ :: _ => False | TLP :: TStar :: _ | TLP :: TAmp :: _ | TLP :: TName _ :: _ => False | _ => True end.
Lemma rd_abs f l : abstract l -> rd_dcl (S f) l = behind f [] None l.
Proof. destruct l as [|[] [|[] l]]; cbn [abstract]; intros H; try reflexivity; destruct H. Qed.

(** ends of a declarator *)
Definition fin (l : list tok) : Prop := match l with [] | TRP :: _ | TComma :: _ => True | _ => False end.
Lemma fin_abstract l : fin l -> abstract l.
Proof. destruct l as [|[] l]; cbn; auto; intros []. Qed.
Lemma fin_noqual l : fin l -> noqual l.
Proof. destruct l as [|[] l]; cbn; auto. Qed.
Lemma abstract_noqual l : abstract l -> noqual l.
Proof. destruct l as [|[] l]; cbn; auto. Qed.
Lemma rd_suffixes_fin f l : fin l -> rd_suffixes (S f) l = Some ([], l).
Proof. destruct l as [|[] l]; cbn [fin]; intros H; try destruct H; reflexivity. Qed.

(** the text w is read as the single suffix s *)
Definition suf (w : list tok) (s : step) : Prop :=
  (forall l, abstract (w ++ l)) /\
  exists F, forall f, F <= f -> forall l, exists l0,
    (w ++ l = TLB :: l0 /\ rd_brackets l0 = Some (s, l)) \/ (w ++ l = TLP :: l0 /\ rd_params f l0 = Some (s, l)).
Lemma suf_read w s : suf w s -> exists F, forall f, F <= f -> forall l, rd_suffixes (S f) (w ++ l) = match rd_suffixes f l with Some (s', l) => Some (s :: s', l) | None => None end.
Proof.
  intros [_ [F H]]. exists F. intros f Hf l. destruct (H f Hf l) as [l0 [[E R]|[E R]]]; rewrite E; cbn [rd_suffixes]; rewrite R; reflexivity.
Qed.
Definition sufs (ws : list (list tok * step)) : Prop := Forall (fun x => suf (fst x) (snd x)) ws.
Definition text (ws : list (list tok * step)) : list tok := concat (map fst ws).
Lemma sufs_read ws : sufs ws -> exists F, forall f, F <= f -> forall l, fin l -> rd_suffixes f (text ws ++ l) = Some (map snd ws, l).
Proof.
  induction 1 as [|[w s] ws Hw _ [F2 IH]].
  - exists 1. intros [|f] Hf l Hl; [lia|]. apply rd_suffixes_fin, Hl.
  - destruct (suf_read _ _ Hw) as [F1 H1]. exists (S (F1 + F2)). intros [|f] Hf l Hl; [lia|].
    unfold text. cbn [map concat fst snd]. rewrite <- app_assoc, H1 by lia. fold (text ws). rewrite IH by (auto; lia). reflexivity.
Qed.
Lemma text_abstract ws l : sufs ws -> fin l -> abstract (text ws ++ l).
Proof.
  intros H Hl. destruct H as [|[w s] ws [Hw _] _]; [apply fin_abstract, Hl|].
  unfold text. cbn [map concat fst]. rewrite <- app_assoc. apply Hw.
Qed.

(** declarators *)
Definition direct (r : list tok) (n : option name) (ds : list step) : Prop :=
  forall ws, sufs ws -> exists F, forall f, F <= f -> forall l, fin l -> rd_dcl f (r ++ text ws ++ l) = Some (ds ++ map snd ws, n, l).
Definition whole (r : list tok) (n : option name) (ds : list step) : Prop :=
  exists F, forall f, F <= f -> forall l, fin l -> rd_dcl f (r ++ l) = Some (ds, n, l).
Lemma behind_ok ws n ds : sufs ws -> exists F, forall f, F <= f -> forall l, fin l -> behind f ds n (text ws ++ l) = Some (ds ++ map snd ws, n, l).
Proof. intros H. destruct (sufs_read _ H) as [F HF]. exists F. intros f Hf l Hl. unfold behind. rewrite HF by assumption. reflexivity. Qed.
Lemma direct_abs : direct [] None [].
Proof.
  intros ws H. destruct (behind_ok ws None [] H) as [F HF]. exists (S F). intros [|f] Hf l Hl; [lia|].
  cbn [app]. rewrite rd_abs by (apply text_abstract; assumption). apply HF; [lia|assumption].
Qed.
Lemma direct_name n : direct [TName n] (Some n) [].
Proof.
  intros ws H. destruct (behind_ok ws (Some n) [] H) as [F HF]. exists (S F). intros [|f] Hf l Hl; [lia|].
  cbn [app]. rewrite rd_name. apply HF; [lia|assumption].
Qed.
Lemma direct_suffix r n ds w s : direct r n ds -> suf w s -> direct (r ++ w) n (ds ++ [s]).
Proof.
  intros H Hw ws Hws. destruct (H ((w, s) :: ws)) as [F HF]; [constructor; assumption|].
  exists F. intros f Hf l Hl. specialize (HF f Hf l Hl). unfold text in HF. cbn [map concat fst snd] in HF.
  rewrite <- !app_assoc in *. exact HF.
Qed.
Lemma direct_whole r n ds : direct r n ds -> whole r n ds.
Proof. intros H. destruct (H []) as [F HF]; [constructor|]. exists F. intros f Hf l Hl. specialize (HF f Hf l Hl). rewrite app_nil_r in HF. exact HF. Qed.
Lemma direct_paren r n ds : whole (TStar :: r) n ds -> direct (TLP :: (TStar :: r) ++ [TRP]) n ds.
Proof.
  intros [F1 H1] ws Hws. destruct (behind_ok ws n ds Hws) as [F2 H2]. exists (S (F1 + F2)). intros [|f] Hf l Hl; [lia|].
  change ((TLP :: (TStar :: r) ++ [TRP]) ++ text ws ++ l) with (TLP :: TStar :: ((r ++ [TRP]) ++ text ws ++ l)).
  rewrite rd_paren. rewrite <- (app_assoc r [TRP]). change (TStar :: r ++ [TRP] ++ text ws ++ l) with ((TStar :: r) ++ TRP :: text ws ++ l).
  rewrite H1 by (cbn; auto; lia). apply H2; [lia|assumption].
Qed.
Lemma app_noqual r l : noqual r -> fin l -> noqual (r ++ l).
Proof. destruct r as [|x r]; intros H Hl; [apply fin_noqual, Hl|]. exact H. Qed.
Lemma whole_ptr q r n ds : whole r n ds -> noqual r -> whole (TStar :: handleQ q r) n (ds ++ [SPtr q]).
Proof.
  intros [F H] Hn. exists (S F). intros [|f] Hf l Hl; [lia|].
  cbn [app]. rewrite rd_star, handleQ_app, rd_handleQ by (apply app_noqual; assumption). rewrite H by (auto; lia). reflexivity.
Qed.
Lemma whole_ref q r n ds : whole r n ds -> noqual r -> whole (TAmp :: handleQ q r) n (ds ++ [SRef q]).
Proof.
  intros [F H] Hn. exists (S F). intros [|f] Hf l Hl; [lia|].
  cbn [app]. rewrite rd_amp, handleQ_app, rd_handleQ by (apply app_noqual; assumption). rewrite H by (auto; lia). reflexivity.
Qed.

(** the text built so far; a: it starts with the mark of a reference *)
Inductive shape (r : list tok) (n : option name) (ds : list step) : bool -> Prop :=
| Sdirect : direct r n ds -> (match r with TStar :: _ => False | _ => True end) -> noqual r -> shape r n ds false
| Sstar r' : r = TStar :: r' -> whole r n ds -> shape r n ds false
| Samp r' : r = TAmp :: r' -> whole r n ds -> shape r n ds true.
Lemma shape_whole r n ds a : shape r n ds a -> whole r n ds /\ noqual r.
Proof. intros [H _ Hn|r' -> H|r' -> H]; split; try assumption; try exact I. apply direct_whole, H. Qed.
Lemma shape_suffix r n ds w s : shape r n ds false -> suf w s -> shape (enclose r ++ w) n (ds ++ [s]) false.
Proof.
  intros H Hw. inversion H as [Hd Hs Hn E|r' -> Hd E|]; subst.
  - assert (EE : enclose r = r) by (destruct r as [|[] r]; try reflexivity; destruct Hs). rewrite EE.
    assert (A : abstract w) by (destruct Hw as [A _]; specialize (A []); rewrite app_nil_r in A; exact A).
    apply Sdirect.
    + apply direct_suffix; assumption.
    + destruct r as [|x r]; [|exact Hs]. cbn [app]. destruct w as [|[] w]; cbn in A |- *; auto.
    + destruct r as [|x r]; [|exact Hn]. cbn [app]. apply abstract_noqual, A.
  - cbn [enclose]. apply Sdirect; [|exact I|exact I]. apply direct_suffix; [|assumption]. apply direct_paren, Hd.
Qed.
Lemma suf_brackets q st d : suf (brackets q st d) (SArr q st d).
Proof.
  split; [intros l; exact I|]. exists 0. intros f _ l. eexists. apply or_introl. split; [reflexivity|].
  destruct q as [[] [] [] []], st, d; reflexivity.
Qed.

(** types *)
Definition good (c : bool) (t : ty) : Prop :=
  forall r n ds a, shape r n ds a -> (a = true -> match t with Array _ _ _ _ | Func _ _ _ => False | _ => True end) ->
  exists F, forall f, F <= f -> forall l, fin l -> rd_decl f (gen c t r ++ l) = Some (apps ds t, n, l).
Lemma apps_snoc ds s t : apps (ds ++ [s]) t = apps ds (app1 s t).
Proof. unfold apps. rewrite fold_right_app. reflexivity. Qed.
Definition pname (c : bool) (i : nat) : list tok := if c then [TName (Param i)] else [].
Fixpoint go (c : bool) (i : nat) (l : list ty) : list (list tok) := match l with [] => [] | p :: l => gen c p (pname c i) :: go c (S i) l end.
Lemma gen_func c ps va ret r : gen c (Func ps va ret) r = gen c ret (enclose r ++ parens c va (go c 0 ps)).
Proof.
  cbn [gen]. f_equal. f_equal. f_equal. generalize 0. induction ps as [|p ps IH]; intros i; [reflexivity|]. cbn [go]. rewrite <- IH. reflexivity.
Qed.
Definition pn (c : bool) (i : nat) : option name := if c then Some (Param i) else None.
Lemma good_param c t i : good c t -> exists F, forall f, F <= f -> forall l, fin l -> rd_decl f (gen c t (pname c i) ++ l) = Some (t, pn c i, l).
Proof.
  intros H. destruct c; cbn [pname pn].
  - apply (H _ _ [] false); [|discriminate]. apply Sdirect; [apply direct_name|exact I|exact I].
  - apply (H _ _ [] false); [|discriminate]. apply Sdirect; [apply direct_abs|exact I|exact I].
Qed.
Fixpoint named (c : bool) (i : nat) (l : list ty) : list (ty * option name) := match l with [] => [] | p :: l => (p, pn c i) :: named c (S i) l end.
Lemma named_fst c l : forall i, map fst (named c i l) = l.
Proof. induction l as [|p l IH]; intros i; cbn [named map fst]; [reflexivity|]. rewrite IH. reflexivity. Qed.
Lemma named_new c l : forall i j, i < j -> existsb (fun y => match y with Some y => same (Param i) y | None => false end) (map snd (named c j l)) = false.
Proof.
  induction l as [|p l IH]; intros i j Hij; cbn [named map snd existsb]; [reflexivity|]. rewrite IH by lia.
  destruct c; cbn [pn same]; [|reflexivity]. destruct (Nat.eqb_spec i j); [lia|reflexivity].
Qed.
Lemma named_distinct c l : forall i, distinct (map snd (named c i l)) = true.
Proof.
  induction l as [|p l IH]; intros i; cbn [named map snd distinct]; [reflexivity|]. unfold pn at 1. destruct c; [|apply IH].
  rewrite named_new by lia. apply IH.
Qed.
Lemma good_list c (va : bool) ps : Forall (good c) ps -> ps <> [] -> forall i, exists F, forall f, F <= f -> forall l,
  rd_list f (commas (go c i ps) ++ (if va then [TComma; TDots] else []) ++ TRP :: l) = Some (named c i ps, va, l).
Proof.
  induction 1 as [|p ps Hp Hps IH]; intros Hne i; [congruence|]. destruct (good_param c p i Hp) as [F1 H1].
  destruct ps as [|p2 ps].
  - exists (S F1). intros [|f] Hf l; [lia|]. cbn [go commas rd_list].
    destruct va; cbn [app]; rewrite H1 by (cbn; auto; lia); reflexivity.
  - destruct (IH ltac:(discriminate) (S i)) as [F2 H2]. exists (S (F1 + F2)). intros [|f] Hf l; [lia|].
    remember (p2 :: ps) as qs eqn:Eq. assert (E : commas (go c i (p :: qs)) = gen c p (pname c i) ++ TComma :: commas (go c (S i) qs)) by (rewrite Eq; reflexivity).
    rewrite E, <- app_assoc. cbn [rd_list]. rewrite H1 by (cbn; auto; lia). cbn [app]. specialize (H2 f ltac:(lia) l).
    remember (commas (go c (S i) qs) ++ _) as rest eqn:Er in *.
    destruct rest as [|[] [|[] rest]]; try (rewrite H2; reflexivity). exfalso. destruct f as [|f]; cbn [rd_list] in H2; [discriminate|].
    destruct f; cbn in H2; discriminate.
Qed.
(** the first tokens of a type *)
Definition lead (l : list tok) : Prop := match l with TQ _ :: _ | TBase _ :: _ => True | _ => False end.
Lemma lead_gen c t : forall r, lead (gen c t r).
Proof.
  induction t as [q b|q t IH|q st d t IH|ps va ret _ IH|q t IH] using ty_ind'; intros r; try apply IH.
  destruct q as [[] [] [] []]; exact I.
Qed.
Lemma lead_commas c ps i l : ps <> [] -> lead (commas (go c i ps) ++ l).
Proof.
  intros H. destruct ps as [|p ps]; [congruence|]. cbn [go]. assert (L := lead_gen c p (pname c i)).
  destruct (go c (S i) ps) as [|y ys]; cbn [commas]; rewrite <- ?app_assoc; destruct (gen c p (pname c i)) as [|[] g]; try contradiction; exact I.
Qed.
Lemma rd_params_list f l : lead l -> (forall r, l <> TBase 0 :: TRP :: r) ->
  rd_params (S f) l = match rd_list f l with Some (ps, va, l) => if distinct (map snd ps) then Some (SFun (map fst ps) va, l) else None | None => None end.
Proof.
  intros L H. destruct l as [|[] l]; try (destruct L; fail); [reflexivity|].
  destruct b as [|b]; [|reflexivity]. destruct l as [|[] l]; try reflexivity. exfalso. eapply H. reflexivity.
Qed.
Lemma rd_list_void f r ps va l : rd_list f (TBase 0 :: TRP :: r) = Some (ps, va, l) -> map fst ps = [Base noq 0] /\ va = false.
Proof.
  destruct f as [|[|[|[|f]]]]; cbn; intros H; try discriminate. injection H as <- <- <-. split; reflexivity.
Qed.
Lemma void_like_noq : void_like (Base noq 0) = true.
Proof. reflexivity. Qed.
Lemma suf_parens c va ps : Forall (good c) ps -> (negb c && negb va && match ps with [p] => void_like p | _ => false end) = false ->
  suf (parens c va (go c 0 ps)) (SFun ps va).
Proof.
  intros HF Hv. destruct ps as [|p ps].
  - cbn [go parens]. split; [destruct va, c; intros l; exact I|]. exists 1. intros [|f] Hf l; [lia|].
    destruct va, c; cbn [negb app]; eexists; apply or_intror; (split; [reflexivity|]); reflexivity.
  - remember (p :: ps) as qs eqn:Eq. assert (Hne : qs <> []) by (rewrite Eq; discriminate).
    assert (EP : forall l, parens c va (go c 0 qs) ++ l = TLP :: commas (go c 0 qs) ++ (if va then [TComma; TDots] else []) ++ TRP :: l).
    { intros l. assert (parens c va (go c 0 qs) = TLP :: commas (go c 0 qs) ++ (if va then [TComma; TDots] else []) ++ [TRP]) as -> by (rewrite Eq; reflexivity).
      cbn [app]. rewrite <- !app_assoc. reflexivity. }
    split.
    + intros l. rewrite EP. assert (L := lead_commas c qs 0 ((if va then [TComma; TDots] else []) ++ TRP :: l) Hne).
      remember (commas (go c 0 qs) ++ _) as rest. destruct rest as [|[] rest]; try contradiction; exact I.
    + destruct (good_list c va qs HF Hne 0) as [F H]. exists (S F). intros [|f] Hf l; [lia|]. eexists. apply or_intror. split; [apply EP|].
      rewrite rd_params_list; [rewrite H by lia; rewrite named_distinct, named_fst; reflexivity|apply lead_commas, Hne|].
      intros r E. specialize (H f ltac:(lia) l). rewrite E in H. apply rd_list_void in H as [E1 E2]. subst va. rewrite named_fst, Eq in E1. injection E1 as -> ->. subst qs.
      destruct c; [cbn in E; discriminate E|cbn in Hv; discriminate Hv].
Qed.
Theorem good_all c t : ok c t = true -> good c t.
Proof.
  induction t as [q b|q t IH|q st d t IH|ps va ret IHps IH|q t IH] using ty_ind'; cbn [ok]; intros Hok r n ds a Hs Ha.
  - destruct (shape_whole _ _ _ _ Hs) as [[F H] _]. exists (S F). intros [|f] Hf l Hl; [lia|]. cbn [gen].
    rewrite handleQ_app, rd_decl_eq, rd_handleQ by exact I. cbn [app]. rewrite H by (auto; lia). reflexivity.
  - destruct (shape_whole _ _ _ _ Hs) as [W Hn]. cbn [gen]. 
    assert (E : apps ds (Pointer q t) = apps (ds ++ [SPtr q]) t) by (rewrite apps_snoc; reflexivity). rewrite E.
    apply (IH Hok _ _ _ false); [|discriminate]. eapply Sstar; [reflexivity|]. apply whole_ptr; assumption.
  - assert (a = false) as -> by (destruct a; [destruct (Ha eq_refl)|reflexivity]). cbn [gen].
    assert (E : apps ds (Array q st d t) = apps (ds ++ [SArr q st d]) t) by (rewrite apps_snoc; reflexivity). rewrite E.
    apply (IH Hok _ _ _ false); [|discriminate]. apply shape_suffix; [assumption|apply suf_brackets].
  - assert (a = false) as -> by (destruct a; [destruct (Ha eq_refl)|reflexivity]). rewrite gen_func.
    apply andb_prop in Hok as [Hok Hv]. apply andb_prop in Hok as [Hps Hr]. apply negb_true_iff in Hv.
    assert (E : apps ds (Func ps va ret) = apps (ds ++ [SFun ps va]) ret) by (rewrite apps_snoc; reflexivity). rewrite E.
    apply (IH Hr _ _ _ false); [|discriminate]. apply shape_suffix; [assumption|]. apply suf_parens; [|assumption].
    rewrite forallb_forall in Hps. rewrite Forall_forall in IHps |- *. intros x Hx. apply IHps; [exact Hx|apply Hps, Hx].
  - destruct (shape_whole _ _ _ _ Hs) as [W Hn]. cbn [gen]. apply andb_prop in Hok as [Hok Hb]. apply andb_prop in Hok as [_ Hok].
    assert (E : apps ds (Ref q t) = apps (ds ++ [SRef q]) t) by (rewrite apps_snoc; reflexivity). rewrite E.
    apply (IH Hok _ _ _ true); [|intros _; destruct t; auto; discriminate]. eapply Samp; [reflexivity|]. apply whole_ref; assumption.
Qed.
Definition uname (n : option nat) : option name := option_map User n.
Lemma genType_declares c t n : ok c t = true -> declares (genType c t n) t (uname n).
Proof.
  intros H. assert (S0 : shape (match n with Some n => [TName (User n)] | None => [] end) (uname n) [] false).
  { destruct n; apply Sdirect; try exact I; [apply direct_name|apply direct_abs]. }
  destruct (good_all c t H _ _ _ _ S0 ltac:(discriminate)) as [F HF]. exists F. intros f Hf.
  specialize (HF f Hf [] I). rewrite app_nil_r in HF. exact HF.
Qed.
Lemma declares_unique l t t' n n' : declares l t n -> declares l t' n' -> t = t' /\ n = n'.
Proof. intros [F H] [F' H']. specialize (H (F + F') ltac:(lia)). specialize (H' (F + F') ltac:(lia)). rewrite H in H'. injection H' as <- <-. split; reflexivity. Qed.
Lemma noref_ok t : noref t = true -> ok true t = true.
Proof.
  induction t as [q b|q t IH|q st d t IH|ps va ret IHps IH|q t IH] using ty_ind'; cbn [noref ok]; intros H; auto; try discriminate.
  apply andb_prop in H as [Hp Hr]. rewrite (IH Hr). cbn [negb andb]. rewrite !andb_true_r.
  rewrite forallb_forall in Hp |- *. rewrite Forall_forall in IHps. intros x Hx. apply IHps; auto.
Qed.
