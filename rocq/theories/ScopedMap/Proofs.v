From Coq Require Import ZArith List Bool Lia ZifyBool.
From Verif.ScopedMap Require Import Model Spec.
Import ListNotations.
Open Scope Z_scope.

Section P.
Context {V : Type}.
Notation omap := (list (Z * V)). Notation scopes := (list (list (Z * V))). Notation env := (env V).

(** sorted maps *)
Inductive sorted : omap -> Prop :=
| so_nil : sorted []
| so_cons k v m : sorted m -> (forall k' v', In (k', v') m -> k < k') -> sorted ((k, v) :: m).

Lemma mfind_in (m : omap) k v : mfind m k = Some v -> In (k, v) m.
Proof.
  induction m as [|[k' v'] m IH]; cbn; [discriminate|]. destruct (Z.eqb_spec k k') as [->|].
  - intros H; injection H as ->. auto.
  - auto.
Qed.
Lemma mfind_none (m : omap) k : mfind m k = None <-> forall v, ~ In (k, v) m.
Proof.
  induction m as [|[k' v'] m IH]; cbn; [split; auto|]. destruct (Z.eqb_spec k k') as [->|Hne].
  - split; [discriminate|]. intros H. exfalso. apply (H v'). auto.
  - rewrite IH. split; intros H v; [intros [E|E]; [congruence|apply (H v E)]|intros E; apply (H v); auto].
Qed.
Lemma minsert_in (m : omap) k v k' v' : In (k', v') (fst (minsert m k v)) -> (k', v') = (k, v) \/ In (k', v') m.
Proof.
  induction m as [|[k0 v0] m IH]; cbn; [intros [H|[]]; auto|].
  destruct (k <? k0); cbn; [intros [H|H]; auto|]. destruct (k =? k0); cbn; auto.
  destruct (minsert m k v) as [r b]; cbn in *. intros [H|H]; auto. destruct (IH H); auto.
Qed.
Lemma minsert_sorted (m : omap) k v : sorted m -> sorted (fst (minsert m k v)).
Proof.
  induction m as [|[k0 v0] m IH]; cbn [minsert fst]; intros H; [repeat constructor; intros ? ? []|].
  inversion H; subst. destruct (Z.ltb_spec k k0) as [L|L].
  - cbn [fst]. constructor; auto. intros k' v' [E|E]; [injection E as <- <-; auto|]. specialize (H4 _ _ E). lia.
  - destruct (Z.eqb_spec k k0) as [->|Hne]; [auto|].
    specialize (IH H2). assert (G := minsert_in m k v). destruct (minsert m k v) as [r b]; cbn [fst] in *.
    constructor; auto. intros k' v' E. destruct (G _ _ E) as [E'|E']; [injection E' as -> ->; lia|eauto].
Qed.
Lemma minsert_find (m : omap) k v : sorted m -> forall x,
  mfind (fst (minsert m k v)) x = (if (x =? k) && snd (minsert m k v) then Some v else mfind m x) /\
  (snd (minsert m k v) = true <-> mfind m k = None).
Proof.
  induction m as [|[k0 v0] m IH]; cbn [minsert]; intros H x.
  - cbn. rewrite andb_true_r. destruct (x =? k); tauto.
  - inversion H; subst. destruct (Z.ltb_spec k k0) as [L|L].
    + cbn [fst snd]. rewrite andb_true_r. split; [cbn; destruct (x =? k); auto|]. split; auto. intros _.
      apply mfind_none. intros v1 [E|E]; [injection E as -> ->; lia|]. specialize (H4 _ _ E). lia.
    + destruct (Z.eqb_spec k k0) as [->|Hne].
      * cbn [fst snd]. rewrite andb_false_r. split; auto. cbn. rewrite Z.eqb_refl. split; discriminate.
      * destruct (IH H2 x) as [I1 I2]. destruct (minsert m k v) as [r b]; cbn [fst snd] in *. cbn [mfind].
        destruct (Z.eqb_spec k k0); [lia|]. split; auto. rewrite I1.
        destruct (Z.eqb_spec x k0) as [->|]; auto. destruct (Z.eqb_spec k0 k); [lia|]. reflexivity.
Qed.
Lemma merase_in (m : omap) k p : In p (fst (merase m k)) -> In p m.
Proof.
  induction m as [|[k0 v0] m IH]; cbn; auto. destruct (k =? k0); cbn; auto.
  destruct (merase m k) as [r c]; cbn in *. intros [H|H]; auto.
Qed.
Lemma merase_sorted (m : omap) k : sorted m -> sorted (fst (merase m k)).
Proof.
  induction 1 as [|k0 v0 m Hs IH Hlt]; cbn [merase]; [constructor|]. destruct (k =? k0); cbn [fst]; auto.
  assert (G := merase_in m k). destruct (merase m k) as [r c]; cbn [fst] in *. constructor; eauto.
Qed.
Lemma merase_find (m : omap) k : sorted m -> forall x,
  mfind (fst (merase m k)) x = (if x =? k then None else mfind m x) /\
  snd (merase m k) = (match mfind m k with Some _ => 1 | None => 0 end).
Proof.
  induction 1 as [|k0 v0 m Hs IH Hlt]; intros x; cbn [merase]; [cbn; destruct (x =? k); auto|].
  destruct (Z.eqb_spec k k0) as [->|Hne].
  - cbn [fst snd mfind]. rewrite Z.eqb_refl. split; auto. destruct (Z.eqb_spec x k0) as [->|]; auto.
    apply mfind_none. intros v E. specialize (Hlt _ _ E). lia.
  - destruct (IH x) as [I1 I2]. destruct (merase m k) as [r c]; cbn [fst snd] in *. cbn [mfind].
    destruct (Z.eqb_spec k k0); [lia|]. split; auto. rewrite I1.
    destruct (Z.eqb_spec x k0) as [->|]; auto. destruct (Z.eqb_spec k0 k); [lia|auto].
Qed.

(** refinement relation *)
Definition rel (m : omap) (e : env) : Prop := sorted m /\ forall k, mfind m k = e k.
Definition Rel (s : scopes) (es : list env) : Prop := Forall2 rel s es.
Lemma Forall2_length {A B} (R : A -> B -> Prop) l l' : Forall2 R l l' -> length l = length l'.
Proof. induction 1; cbn; congruence. Qed.
Lemma Rel_len s es : Rel s es -> length s = length es.
Proof. apply Forall2_length. Qed.

Lemma find_lookup s es k : Rel s es -> find s k = lookup es k.
Proof.
  induction 1 as [|m e s es [Hs Hm] H IH]; cbn; auto. rewrite Hm, (Forall2_length _ _ _ H), IH. auto.
Qed.

Lemma update_cons (e : env) es l f : update (e :: es) l f = (if Nat.eqb (length es) l then f e else e) :: update es l f.
Proof.
  unfold update. cbn [length]. rewrite seq_S, rev_app_distr. cbn. reflexivity.
Qed.
Lemma env_at_cons (e : env) es l : env_at (e :: es) l = if Nat.eqb l (length es) then Some e else env_at es l.
Proof.
  unfold env_at. cbn [rev]. destruct (Nat.eqb_spec l (length es)) as [->|Hne].
  - rewrite nth_error_app2 by (rewrite rev_length; lia). rewrite rev_length, Nat.sub_diag. reflexivity.
  - destruct (Nat.lt_ge_cases l (length es)).
    + rewrite nth_error_app1 by (rewrite rev_length; lia). reflexivity.
    + rewrite nth_error_app2 by (rewrite rev_length; lia). rewrite rev_length.
      rewrite (proj2 (nth_error_None (rev es) l)) by (rewrite rev_length; lia).
      apply nth_error_None. cbn. lia.
Qed.
Lemma env_at_big (es : list env) l : (length es <= l)%nat -> env_at es l = None.
Proof. intros. apply nth_error_None. rewrite rev_length. lia. Qed.
Lemma update_big (es : list env) l f : (length es <= l)%nat -> update es l f = es.
Proof.
  induction es as [|e es IH]; intros H; auto. rewrite update_cons. cbn in H.
  destruct (Nat.eqb_spec (length es) l); [lia|]. rewrite IH by lia. auto.
Qed.

Lemma insertAt_spec s es l k v : Rel s es ->
  match env_at es l, insertAt s l k v with
  | None, None => True
  | Some e, Some (s', b) => b = negb (bound e k) /\
       Rel s' (if bound e k then es else update es l (fun e => bind e k v))
  | _, _ => False
  end.
Proof.
  induction 1 as [|m e s es [Hs Hm] H IH]; [unfold env_at; destruct l; cbn; auto|].
  rewrite env_at_cons. cbn [insertAt]. rewrite (Forall2_length _ _ _ H).
  destruct (Nat.eqb_spec l (length es)) as [->|Hne].
  - assert (F := fun x => minsert_find m k v Hs x). assert (S := minsert_sorted m k v Hs).
    destruct (minsert m k v) as [m' b]; cbn [fst snd] in *.
    assert (Eb : b = negb (bound e k)).
    { destruct (F k) as [_ F2]. unfold bound. rewrite <- Hm. destruct b; destruct (mfind m k); cbn; auto; exfalso; intuition congruence. }
    split; auto. rewrite update_cons, Nat.eqb_refl, update_big by lia.
    destruct (bound e k) eqn:B; cbn [negb] in Eb; subst b.
    + constructor; auto. split; auto. intros x. destruct (F x) as [F1 _]. rewrite F1, andb_false_r. auto.
    + constructor; auto. split; auto. intros x. destruct (F x) as [F1 _]. rewrite F1, andb_true_r. unfold bind.
      destruct (x =? k); auto.
  - destruct (env_at es l) as [e0|]; destruct (insertAt s l k v) as [[s' b]|]; auto.
    destruct IH as [-> IH]. split; auto. rewrite update_cons. destruct (Nat.eqb_spec (length es) l); [lia|].
    destruct (bound e0 k); constructor; auto; split; auto.
Qed.
Lemma insert_insertAt (s : scopes) k v : s <> [] -> insertAt s (length s - 1) k v = Some (insert s k v).
Proof.
  destruct s as [|m s]; [congruence|]. intros _. cbn [insertAt length insert]. replace (S (length s) - 1)%nat with (length s) by lia.
  rewrite Nat.eqb_refl. destruct (minsert m k v); auto.
Qed.
Lemma env_at_top (es : list env) : es <> [] -> exists e, env_at es (length es - 1) = Some e /\ hd_error es = Some e.
Proof.
  destruct es as [|e es]; [congruence|]. intros _. exists e. rewrite env_at_cons. cbn [length].
  replace (S (length es) - 1)%nat with (length es) by lia. rewrite Nat.eqb_refl. auto.
Qed.

Lemma erase_spec s es k : Rel s es ->
  snd (erase s k) = (match lookup es k with Some _ => 1 | None => 0 end) /\
  Rel (fst (erase s k)) (match lookup es k with Some (l, _) => update es l (fun e => unbind e k) | None => es end).
Proof.
  induction 1 as [|m e s es [Hs Hm] H IH]; [cbn; split; auto; constructor|].
  cbn [erase lookup]. assert (F := fun x => merase_find m k Hs x). assert (S := merase_sorted m k Hs).
  destruct (merase m k) as [m' c]; cbn [fst snd] in *.
  assert (Ec : c = match e k with Some _ => 1 | None => 0 end). { destruct (F k) as [_ F2]. rewrite <- Hm. auto. }
  destruct (e k) as [v|] eqn:Ek; subst c; cbn [Z.eqb negb fst snd].
  - split; auto. rewrite update_cons, Nat.eqb_refl, update_big by lia. constructor; auto. split; auto.
    intros x. unfold unbind. destruct (F x) as [F1 _]. rewrite F1, Hm. auto.
  - assert (Hlt : forall l v, lookup es k = Some (l, v) -> (l < length es)%nat).
    { clear. induction es as [|e es IH]; cbn; [discriminate|]. intros l v. destruct (e k); [intros E; injection E as <- <-; lia|].
      intros E. specialize (IH _ _ E). lia. }
    destruct IH as [I1 I2]. destruct (erase s k) as [s' c']; cbn [fst snd] in *.
    assert (R : rel m' e). { split; auto. intros x. destruct (F x) as [F1 _]. rewrite F1. destruct (Z.eqb_spec x k) as [E0|]; [rewrite E0; symmetry; exact Ek|apply Hm]. }
    destruct (lookup es k) as [[l v]|] eqn:EL; split; auto.
    + rewrite update_cons. specialize (Hlt _ _ eq_refl). destruct (Nat.eqb_spec (length es) l); [lia|]. constructor; auto.
    + constructor; auto.
Qed.

Lemma find_lt (s : scopes) k l v : find s k = Some (l, v) -> (l < length s)%nat.
Proof.
  induction s as [|m s IH]; cbn; [discriminate|]. destruct (mfind m k); [intros E; injection E as <- <-; lia|].
  intros E. specialize (IH E). lia.
Qed.
Lemma number_find s es k l v : Rel s es -> find s k = Some (l, v) ->
  number_bound es k = S (number_bound (skipn (length es - l) es) k) /\ Rel (skipn (length s - l) s) (skipn (length es - l) es).
Proof.
  induction 1 as [|m e s es [Hs Hm] H IH]; [discriminate|]. cbn [find]. rewrite Hm. unfold number_bound in *.
  assert (HL := Forall2_length _ _ _ H).
  destruct (e k) as [v0|] eqn:Ek.
  - intros E; injection E as <- <-. cbn [length filter]. unfold bound at 1. rewrite Ek. cbn [length].
    rewrite HL. replace (S (length es) - length es)%nat with 1%nat by lia. cbn. split; auto.
  - intros E. assert (Hlt := find_lt _ _ _ _ E). destruct (IH E) as [I1 I2]. cbn [length filter]. unfold bound at 1. rewrite Ek.
    rewrite HL in *. replace (S (length es) - l)%nat with (S (length es - l)) by lia. cbn [skipn]. rewrite I1. split; auto.
Qed.
Lemma number_none s es k : Rel s es -> find s k = None -> number_bound es k = 0%nat.
Proof.
  induction 1 as [|m e s es [Hs Hm] H IH]; [reflexivity|]. cbn [find]. rewrite Hm. unfold number_bound in *.
  destruct (e k) eqn:Ek; [discriminate|]. intros E. cbn. unfold bound at 1. rewrite Ek. auto.
Qed.
Lemma skipn_skipn {A} a b (l : list A) : skipn a (skipn b l) = skipn (b + a) l.
Proof. revert l; induction b as [|b IH]; intros [|x l]; cbn; auto. destruct a; auto. Qed.
Lemma count_loop_spec s es k : Rel s es -> forall n l c fuel, (l <= length s)%nat -> (l <= n)%nat -> (n <= fuel)%nat ->
  count_loop fuel s (find (skipn (length s - l) s) k) k c = Some (c + number_bound (skipn (length es - l) es) k)%nat.
Proof.
  intros HR. assert (HL := Rel_len _ _ HR). induction n as [|n IH]; intros l c fuel H1 H2 H3.
  - assert (l = 0%nat) by lia. subst. rewrite Nat.sub_0_r, skipn_all, Nat.sub_0_r, skipn_all. cbn. destruct fuel; cbn; f_equal; lia.
  - assert (HR' : Rel (skipn (length s - l) s) (skipn (length es - l) es)).
    { rewrite <- HL. clear -HR. revert HR. generalize (length s - l)%nat as n. intros n HR. revert n.
      induction HR; intros [|n]; cbn; auto; constructor; auto. }
    destruct (find (skipn (length s - l) s) k) as [[l' v]|] eqn:E.
    + assert (Hlt := find_lt _ _ _ _ E). rewrite skipn_length in Hlt.
      destruct fuel as [|fuel]; [lia|]. cbn [count_loop].
      destruct (number_find _ _ _ _ _ HR' E) as [I1 _].
      rewrite I1. rewrite skipn_length. rewrite skipn_skipn.
      replace (length es - l + (length es - (length es - l) - l'))%nat with (length es - l')%nat by lia.
      destruct l' as [|l'].
      * cbn [findNext]. rewrite Nat.sub_0_r, skipn_all. cbn. destruct fuel; cbn; f_equal; lia.
      * change (findNext s (S l') k) with (find (skipn (length s - S l') s) k). rewrite (IH (S l') (S c) fuel) by lia. f_equal. lia.
    + rewrite (number_none _ _ _ HR' E). destruct fuel; cbn; f_equal; lia.
Qed.
Lemma count_spec s es k : Rel s es -> count s k = Some (number_bound es k).
Proof.
  intros HR. assert (G := count_loop_spec s es k HR (length s) (length s) 0 (S (length s)) ltac:(lia) ltac:(lia) ltac:(lia)).
  unfold count. rewrite <- (Rel_len _ _ HR) in G. rewrite Nat.sub_diag in G. exact G.
Qed.

Definition RelO (a : option scopes) (b : option (list env)) : Prop :=
  match a, b with Some s, Some es => Rel s es /\ s <> [] | None, None => True | _, _ => False end.

Lemma step_spec dflt s es o : Rel s es -> s <> [] ->
  RelO (fst (step dflt s o)) (fst (spec_step dflt es o)) /\ snd (step dflt s o) = snd (spec_step dflt es o).
Proof.
  intros HR Hne. assert (HL := Rel_len _ _ HR).
  assert (Hne' : es <> []) by (destruct es; [destruct s; [congruence|discriminate]|congruence]).
  assert (INS : forall l k v, RelO (match insertAt s l k v with Some (s', b) => Some s' | None => None end)
     (fst (match env_at es l with None => (None, @Stop V) | Some e => if bound e k then (Some es, Bool false) else (Some (update es l (fun e => bind e k v)), Bool true) end)) /\
     match insertAt s l k v with Some (s', b) => Bool b | None => Stop end =
     snd (match env_at es l with None => (@None (list env), @Stop V) | Some e => if bound e k then (Some es, Bool false) else (Some (update es l (fun e => bind e k v)), Bool true) end)).
  { intros l k v. assert (G := insertAt_spec s es l k v HR). destruct (env_at es l) as [e|]; destruct (insertAt s l k v) as [[s' b]|]; try contradiction; [|cbn; auto].
    - destruct G as [-> G]. assert (s' <> []).
      { intros ->. apply Rel_len in G. destruct (bound e k); cbn in G; [|unfold update in G; rewrite map_length, combine_length, rev_length, seq_length in G]; destruct es; cbn in *; congruence || lia. }
      destruct (bound e k); cbn; auto. }
  destruct o; cbn [step spec_step].
  - cbn. split; auto. split; [|discriminate]. constructor; auto. split; [constructor|reflexivity].
  - destruct HR as [|m e s es Hr HR]; [congruence|]. cbn [endScope length Nat.leb tl].
    destruct HR as [|m' e' s es Hr' HR]; cbn [length Nat.leb fst snd RelO]; auto. split; auto. split; [constructor; auto|discriminate].
  - specialize (INS (length s - 1)%nat k v). rewrite insert_insertAt in INS by auto. rewrite <- HL. destruct (insert s k v) as [s' b]. exact INS.
  - specialize (INS l k v). destruct (insertAt s l k v) as [[s' b]|]; exact INS.
  - destruct (erase_spec s es k HR) as [E1 E2]. destruct (erase s k) as [s' c]; cbn [fst snd] in *. subst c.
    assert (s' <> []). { intros ->. apply Rel_len in E2. destruct (lookup es k) as [[l v]|]; cbn in E2; [unfold update in E2; rewrite map_length, combine_length, rev_length, seq_length in E2|]; destruct es; cbn in *; congruence || lia. }
    destruct (lookup es k) as [[l v]|]; cbn; auto.
  - cbn. rewrite (find_lookup s es k HR). auto.
  - cbn. unfold contains. rewrite (find_lookup s es k HR). auto.
  - rewrite (count_spec s es k HR). cbn. auto.
  - unfold index. rewrite (find_lookup s es k HR). destruct (lookup es k) as [[l v]|] eqn:EL; cbn [fst snd RelO]; auto.
    assert (G := insertAt_spec s es (length s - 1) k dflt HR). rewrite insert_insertAt in G by auto.
    destruct (insert s k dflt) as [s' b] eqn:EI; cbn [fst] in *. rewrite HL in G.
    destruct (env_at_top es Hne') as (e & Ee & Eh). rewrite Ee in G. destruct G as [-> G].
    assert (Bk : bound e k = false).
    { destruct es as [|e0 es0]; [congruence|]. injection Eh as ->. cbn in EL. unfold bound. destruct (e k); [discriminate|auto]. }
    rewrite Bk in G. split; auto. split; auto. intros ->. apply Rel_len in G. unfold update in G. rewrite map_length, combine_length, rev_length, seq_length in G. destruct es; cbn in *; congruence || lia.
Qed.

Lemma run_spec dflt os : forall s es, Rel s es -> s <> [] -> snd (run dflt s os) = snd (spec_run dflt es os) /\
  RelO (fst (run dflt s os)) (fst (spec_run dflt es os)).
Proof.
  induction os as [|o os IH]; intros s es HR Hne; [cbn; auto|]. cbn [run spec_run].
  destruct (step_spec dflt s es o HR Hne) as [H1 H2].
  destruct (step dflt s o) as [[s'|] x]; destruct (spec_step dflt es o) as [[es'|] y]; cbn [fst snd] in *; try contradiction; subst.
  - destruct H1 as [H1 Hn1]. destruct (IH s' es' H1 Hn1) as [I1 I2]. destruct (run dflt s' os), (spec_run dflt es' os); cbn [fst snd] in *.
    subst. auto.
  - cbn. auto.
Qed.
Lemma Rel_init : Rel initial [empty].
Proof. constructor; [split; [constructor|reflexivity]|constructor]. Qed.

(** scope restoration *)
Lemma run_app dflt (a b : list (op V)) : forall s, run dflt s (a ++ b) =
  match run dflt s a with
  | (Some s', xs) => let (f, ys) := run dflt s' b in (f, xs ++ ys)
  | (None, xs) => (None, xs)
  end.
Proof.
  induction a as [|o a IH]; intros s; cbn [app run]; [destruct (run dflt s b); auto|].
  destruct (step dflt s o) as [[s'|] x]; auto. rewrite IH. destruct (run dflt s' a) as [[s''|] xs]; auto.
  destruct (run dflt s'' b); auto.
Qed.
Lemma insert_tail (s : scopes) k v : s <> [] -> exists m, fst (insert s k v) = m :: tl s.
Proof. destruct s as [|m s]; [congruence|]. intros _. cbn. destruct (minsert m k v); cbn; eauto. Qed.
Lemma inner_run dflt os : inner os -> forall s : scopes, s <> [] -> exists m, fst (run dflt s os) = Some (m :: tl s).
Proof.
  induction 1 as [|k v os H IH|k os H IH|k os H IH|a b Ha IHa Hb IHb]; intros s Hs; cbn [run step].
  - destruct s; [congruence|]. cbn. eauto.
  - destruct (insert_tail s k v Hs) as [m Hm]. destruct (insert s k v) as [s' c]; cbn [fst] in Hm. subst s'.
    destruct (IH (m :: tl s) ltac:(discriminate)) as [m' Hm']. destruct (run dflt (m :: tl s) os) as [f xs]. cbn in *. eauto.
  - unfold index. destruct (find s k) as [[l v]|].
    + destruct (IH s Hs) as [m' Hm']. destruct (run dflt s os) as [f xs]. cbn in *. eauto.
    + destruct (insert_tail s k dflt Hs) as [m Hm]. rewrite Hm.
      destruct (IH (m :: tl s) ltac:(discriminate)) as [m' Hm']. destruct (run dflt (m :: tl s) os) as [f xs]. cbn in *. eauto.
  - destruct (IH s Hs) as [m' Hm']. destruct (run dflt s os) as [f xs]. cbn in *. eauto.
  - rewrite run_app. destruct (IHa (beginScope s) ltac:(discriminate)) as [m Hm].
    destruct (run dflt (beginScope s) a) as [f xs]. cbn [fst] in Hm. subst f. cbn [run step beginScope tl endScope].
    destruct s as [|m0 s]; [congruence|]. destruct (IHb (m0 :: s) Hs) as [m' Hm']. destruct (run dflt (m0 :: s) b) as [f ys].
    cbn in *. eauto.
Qed.
Lemma scope_restores dflt os (s : scopes) : inner os -> s <> [] -> fst (run dflt s (Begin :: os ++ [End])) = Some s.
Proof.
  intros Hi Hs. cbn [run step]. rewrite run_app. destruct (inner_run dflt os Hi (beginScope s) ltac:(discriminate)) as [m Hm].
  destruct (run dflt (beginScope s) os) as [f xs]. cbn [fst] in Hm. subst f.
  destruct s as [|m0 s]; [congruence|]. reflexivity.
Qed.

(** iteration *)
Section It.
Context (valid : V -> bool).
Definition vis (m : omap) : omap := filter (fun p => valid (snd p)) m.
(** visible entries from (level l, position p) on *)
Fixpoint from_level (s : scopes) : omap := match s with [] => [] | m :: r => vis m ++ from_level r end.
Lemma level_map_at (pre : scopes) m s : level_map (pre ++ m :: s) (length s) = m.
Proof.
  unfold level_map. rewrite app_length. cbn [length]. replace (length pre + S (length s) - 1 - length s)%nat with (length pre) by lia.
  rewrite app_nth2 by lia. rewrite Nat.sub_diag. reflexivity.
Qed.
(** next_valid from position p of the scope m, with the outer scopes s *)
Lemma total_app (a b : scopes) : total (a ++ b) = (total a + total b)%nat.
Proof. induction a; cbn [app total fold_right]; auto. unfold total in *. rewrite IHa. cbn. lia. Qed.
Definition remaining (m : omap) (p : nat) (s : scopes) : nat := (S (length m - p) + total s)%nat.
Lemma skipn_nth {A} p (l : list A) x : nth_error l p = Some x -> skipn p l = x :: skipn (S p) l.
Proof. revert l; induction p as [|p IH]; intros [|y l] E; try discriminate; [injection E as ->; auto|]. cbn in E. rewrite (IH l E) at 1. cbn [skipn]. destruct l; auto. Qed.
Lemma next_valid_spec : forall fuel pre m s p, (p <= length m)%nat -> (remaining m p s <= fuel)%nat ->
  exists i, next_valid valid fuel (pre ++ m :: s) (length s, p) = Some i /\
    match vis (skipn p m) ++ from_level s with
    | [] => i = end_it (pre ++ m :: s)
    | x :: rest => at_it (pre ++ m :: s) i = Some x /\ valid (snd x) = true /\
        exists pre' m' s' p', pre ++ m :: s = pre' ++ m' :: s' /\ i = (length s', p') /\ (p' < length m')%nat /\
          vis (skipn (S p') m') ++ from_level s' = rest /\ nth_error m' p' = Some x
    end.
Proof.
  induction fuel as [|fuel IH]; intros pre m s p Hp Hf.
  - unfold remaining in Hf. lia.
  - cbn [next_valid]. unfold is_valid, at_it. cbn [fst snd]. rewrite level_map_at.
    destruct (nth_error m p) as [[k v]|] eqn:En.
    + assert (Hlt : (p < length m)%nat) by (apply nth_error_Some; congruence).
      rewrite (skipn_nth p m _ En). unfold vis at 1. cbn [filter snd]. destruct (valid v) eqn:Ev.
      * exists (length s, p). split; auto. cbn [app]. unfold at_it. cbn [fst snd]. rewrite level_map_at. split; auto. split; auto.
        exists pre, m, s, p. auto.
      * destruct (Nat.leb_spec (length m) p); [lia|]. change (filter (fun p0 : Z * V => valid (snd p0)) (skipn (S p) m)) with (vis (skipn (S p) m)).
        apply IH; [lia|]. unfold remaining in *. lia.
    + apply nth_error_None in En. assert (p = length m) by lia. subst p. rewrite Nat.leb_refl.
      rewrite skipn_all. cbn [vis filter app].
      destruct s as [|m1 s]; cbn [length from_level].
      * eexists; split; [reflexivity|]. cbn. unfold end_it. assert (G := level_map_at pre m []). apply f_equal2; [reflexivity|]. apply f_equal. symmetry. exact G.
      * replace (pre ++ m :: m1 :: s) with ((pre ++ [m]) ++ m1 :: s) by (rewrite <- app_assoc; reflexivity).
        apply (IH (pre ++ [m]) m1 s 0%nat); [lia|]. unfold remaining, total in *. cbn [fold_right] in *. lia.
Qed.
Lemma next_valid_total (pre : scopes) (m : omap) (s : scopes) p : (p <= length m)%nat ->
  exists i, next_valid valid (total (pre ++ m :: s)) (pre ++ m :: s) (length s, p) = Some i /\
    match vis (skipn p m) ++ from_level s with
    | [] => i = end_it (pre ++ m :: s)
    | x :: rest => at_it (pre ++ m :: s) i = Some x /\ valid (snd x) = true /\
        exists pre' m' s' p', pre ++ m :: s = pre' ++ m' :: s' /\ i = (length s', p') /\ (p' < length m')%nat /\
          vis (skipn (S p') m') ++ from_level s' = rest /\ nth_error m' p' = Some x
    end.
Proof.
  intros Hp. apply next_valid_spec; auto. rewrite total_app. unfold remaining. cbn [total fold_right]. fold (total s). lia.
Qed.
Lemma not_end (pre : scopes) (m : omap) (s : scopes) p : (p < length m)%nat -> iter_eqb (length s, p) (end_it (pre ++ m :: s)) = false.
Proof.
  intros Hp. unfold iter_eqb, end_it. cbn [fst snd]. destruct (Nat.eqb_spec (length s) 0) as [E|E]; auto. cbn [andb].
  destruct s; [|discriminate]. assert (G := level_map_at pre m []). replace (level_map (pre ++ [m]) 0) with m by (symmetry; exact G). destruct (Nat.eqb_spec p (length m)); auto. lia.
Qed.
Lemma walk_spec : forall l fuel pre m s p x, (p < length m)%nat -> nth_error m p = Some x ->
  vis (skipn (S p) m) ++ from_level s = l -> (length l < fuel)%nat ->
  walk valid fuel (pre ++ m :: s) (length s, p) = Some (x :: l).
Proof.
  induction l as [|y l IH]; intros fuel pre m s p x Hp Hx Hl Hf; (destruct fuel as [|fuel]; [lia|]);
    cbn [walk]; rewrite not_end by auto; unfold at_it; cbn [fst snd]; rewrite level_map_at, Hx;
    unfold incr; rewrite level_map_at; (destruct (Nat.leb_spec (length m) p); [lia|]);
    destruct (next_valid_total pre m s (S p) ltac:(lia)) as (i & -> & Hi); rewrite Hl in Hi.
  - subst i. destruct fuel; cbn [walk]; unfold iter_eqb; rewrite !Nat.eqb_refl; reflexivity.
  - destruct Hi as (_ & _ & pre' & m' & s' & p' & E & -> & Hp' & Hrest & Hy). rewrite E.
    rewrite (IH fuel pre' m' s' p' y); auto. cbn in Hf. lia.
Qed.
Lemma iterate_spec (s : scopes) : s <> [] -> iterate valid s = Some (from_level s).
Proof.
  destruct s as [|m s]; [congruence|]. intros _. unfold iterate, begin_it, currentScope. cbn [length].
  replace (S (length s) - 1)%nat with (length s) by lia.
  destruct (next_valid_total [] m s 0 ltac:(lia)) as (i & Hi & G). cbn [app] in *. rewrite Hi. cbn [skipn] in G.
  change (vis m ++ from_level s) with (from_level (m :: s)) in G.
  destruct (from_level (m :: s)) as [|x l] eqn:EF.
  - subst i. cbn [walk]. unfold iter_eqb. rewrite !Nat.eqb_refl. reflexivity.
  - destruct G as (_ & _ & pre' & m' & s' & p' & E & -> & Hp' & Hrest & Hy). rewrite E.
    apply walk_spec; auto. assert (HL : forall s : scopes, (length (from_level s) <= total s)%nat).
    { clear. induction s as [|m s IH]; cbn [from_level total fold_right]; auto. rewrite app_length. unfold total in IH. 
      assert (length (vis m) <= length m)%nat by (unfold vis; induction m as [|a m IHm]; cbn; auto; destruct (valid (snd a)); cbn; lia). lia. }
    specialize (HL (m :: s)). rewrite EF in HL. rewrite <- E. cbn [length] in HL. lia.
Qed.
End It.

Lemma from_level_true (s : scopes) : from_level (fun _ => true) s = concat s.
Proof.
  induction s as [|m s IH]; auto. cbn [from_level concat]. rewrite IH. f_equal. unfold vis. induction m; cbn; congruence.
Qed.

(** erasable *)
Definition esorted (s : scopes) := Forall sorted s.
Lemma einsert_find (isE : V -> bool) (s : scopes) k v x : esorted s -> s <> [] ->
  (snd (insert s k v) = true <-> mfind (hd [] s) k = None) /\
  (snd (insert s k v) = true -> efind isE (fst (insert s k v)) x = if x =? k then (if isE v then None else Some ((length s - 1)%nat, v)) else efind isE s x) /\
  (snd (insert s k v) = false -> fst (insert s k v) = s).
Proof.
  intros H Hne. destruct H as [|m s Hm Hs]; [congruence|]. cbn [insert hd].
  destruct (minsert_find m k v Hm x) as [F1 F2]. assert (F3 : snd (minsert m k v) = false -> fst (minsert m k v) = m).
  { clear. induction m as [|[a b] m IH]; cbn; [discriminate|]. destruct (k <? a); cbn; [discriminate|]. destruct (k =? a); cbn; auto.
    destruct (minsert m k v); cbn in *. intros E. rewrite IH; auto. }
  destruct (minsert m k v) as [m' b]; cbn [fst snd] in *. split; auto. split; intros ->.
  - cbn [efind length]. rewrite F1, andb_true_r. replace (S (length s) - 1)%nat with (length s) by lia. destruct (x =? k); auto.
  - rewrite F3; auto.
Qed.
Section E.
Context (erased : V) (isE : V -> bool).
Hypothesis isE_erased : isE erased = true.
Lemma mset_find (m : omap) k v x : mfind m k <> None -> mfind (mset m k v) x = if x =? k then Some v else mfind m x.
Proof.
  induction m as [|[k0 v0] m IH]; cbn [mfind mset]; [congruence|]. destruct (Z.eqb_spec k k0) as [->|Hne]; cbn [mfind]; intros H.
  - destruct (x =? k0); auto.
  - rewrite IH by auto. destruct (Z.eqb_spec x k0) as [->|]; auto. destruct (Z.eqb_spec k0 k); [lia|auto].
Qed.
Lemma mset_sorted (m : omap) k v : sorted m -> sorted (mset m k v).
Proof.
  induction 1 as [|k0 v0 m Hs IH Hlt]; cbn [mset]; [constructor|].
  assert (G : forall k' v', In (k', v') (mset m k v) -> exists v'', In (k', v'') m).
  { clear. induction m as [|[a b] m IH]; cbn; [tauto|]. intros k' v'. destruct (k =? a); cbn; intros [E|E].
    - inversion E; subst. eauto.
    - eauto.
    - inversion E; subst. eauto.
    - destruct (IH _ _ E); eauto. }
  destruct (k =? k0); constructor; auto. intros k' v' E. destruct (G _ _ E) as [v'' E']. eauto.
Qed.
Lemma eerase_sorted s k : esorted s -> esorted (fst (eerase erased s k)).
Proof.
  intros H. destruct H as [|m s Hm Hs]; cbn [eerase]; [constructor|]. destruct (mfind m k); constructor; auto using mset_sorted, minsert_sorted.
Qed.
(** erase hides the key and only the key *)
Lemma eerase_find s k x : esorted s -> s <> [] -> efind isE (fst (eerase erased s k)) x = if x =? k then None else efind isE s x.
Proof.
  intros H Hne. destruct H as [|m s Hm Hs]; [congruence|]. cbn [eerase]. destruct (mfind m k) eqn:Ek; cbn [fst efind].
  - rewrite mset_find by congruence. destruct (x =? k); auto. rewrite isE_erased. auto.
  - destruct (minsert_find m k erased Hm x) as [F1 F2]. rewrite F1, (proj2 F2 Ek), andb_true_r.
    destruct (x =? k); auto. rewrite isE_erased. auto.
Qed.
Lemma efind_begin s k : efind isE (beginScope s) k = efind isE s k.
Proof. reflexivity. Qed.
End E.
End P.
