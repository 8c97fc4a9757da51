From Coq Require Import ZArith List Bool Lia Permutation.
From Verif Require Import Rename.Model Rename.Spec Rename.Proofs.
Import ListNotations.
Open Scope Z_scope.
Lemma zseq_in a n x : In x (zseq a n) -> a <= x < a + Z.of_nat n.
Proof. revert a. induction n as [|n IH]; intros a; cbn [zseq In]; [tauto|]. intros [<-|H]; [lia|]. apply IH in H. lia. Qed.
Lemma zseq_nodup a n : NoDup (map (fun i => (-1, i)) (zseq a n)).
Proof.
  revert a. induction n as [|n IH]; intros a; cbn [zseq map]; constructor; [|apply IH]. intros H. apply in_map_iff in H as [x [[= E] H]]. apply zseq_in in H. lia.
Qed.
(** C116: renaming a declared type (GEN_EXPR_ID) gives every binder a new key, distinct from all others, and every variable the key of its binder; free variables keep theirs *)
Theorem C116_decl : forall d t reset, apart [] t -> vars (fun b k => b = false -> snd k < next_expr d) [] t ->
  exists t', rename_ty_vars false reset d t = Some (t', D (next_expr d + Z.of_nat (length (keys t))) (next_usage d)) /\
    by_key [] t' = by_name [] t /\ keys t' = map (fun i => (-1, i)) (zseq (next_expr d) (length (keys t))).
Proof.
  intros d t reset HA HV. set (new := fun k : key => fst k = -1 /\ next_expr d <= snd k).
  assert (HE : env_ok Decl new [] (next_expr d) (keys t)).
  { unfold env_ok. cbn [concat map app fresh nonzero]. split; [constructor|]. split; [apply zseq_nodup|]. split; [|exact I]. intros k Hk. apply in_map_iff in Hk as [x [<- Hx]]. apply zseq_in in Hx. split; cbn [fst snd]; lia. }
  assert (HF : vars (formal Decl new) [] t).
  { revert HV. generalize (@nil nat). clear. induction t as [n k|c l IH|fa l IH] using ty_rect2; intros ns; cbn [vars].
    - unfold formal, new. destruct (existsb (Nat.eqb n) ns); [auto|]. intros H [_ K]. specialize (H eq_refl). lia.
    - induction IH as [|t l Ht _ IHl]; cbn [fold_right]; [auto|]. intros [H1 H2]. auto.
    - induction IH as [|t l Ht _ IHl]; cbn [fold_right]; [auto|]. intros [H1 H2]. auto. }
  destruct (rn_good Decl new t [] (next_expr d) HE HA HF) as [t' [R [B K]]]. exists t'. unfold rename_ty_vars. cbn [andb]. cbn [app] in R. rewrite R. cbn [snd step]. split; [reflexivity|]. split; [exact B|exact K].
Qed.
Print Assumptions C116_decl.
(** renaming the type of a use (GEN_USAGE): the binders keep their declaration's number and take the usage number; the variables follow *)
Theorem C116_use : forall d t reset, apart [] t -> NoDup (map snd (keys t)) -> ~ In 0 (map snd (keys t)) ->
  vars (fun b k => if b then fst k <> 0 else fst k < next_usage d) [] t ->
  let u := if reset : bool then next_usage d + 1 else next_usage d in
  exists t', rename_ty_vars true reset d t = Some (t', D (next_expr d) u) /\ by_key [] t' = by_name [] t /\ keys t' = map (fun k => (u, snd k)) (keys t).
Proof.
  intros d t reset HA HN HZ HV u. set (new := fun k : key => fst k = u).
  assert (HE : env_ok (Use u) new [] (next_expr d) (keys t)).
  { unfold env_ok. cbn [concat map app fresh nonzero]. split; [constructor|]. split; [|split].
    - clear - HN. induction (keys t) as [|k ks IH]; cbn [map] in *; constructor; inversion HN as [|a b Ha Hb]; subst; [|auto]. intros H. apply in_map_iff in H as [x [[= E] H]]. apply Ha. rewrite <- E. apply in_map, H.
    - intros k Hk. apply in_map_iff in Hk as [x [<- _]]. reflexivity.
    - apply Forall_forall. intros k Hk E. apply HZ. rewrite <- E. apply in_map, Hk. }
  assert (HF : vars (formal (Use u) new) [] t).
  { assert (U : next_usage d <= u) by (unfold u; destruct reset; lia). revert HV. generalize (@nil nat). clear - U. induction t as [n k|c l IH|fa l IH] using ty_rect2; intros ns; cbn [vars].
    - unfold formal, new. destruct (existsb (Nat.eqb n) ns); [auto|]. lia.
    - induction IH as [|t l Ht _ IHl]; cbn [fold_right]; [auto|]. intros [H1 H2]. auto.
    - induction IH as [|t l Ht _ IHl]; cbn [fold_right]; [auto|]. intros [H1 H2]. auto. }
  destruct (rn_good (Use u) new t [] (next_expr d) HE HA HF) as [t' [R [B K]]]. exists t'. unfold rename_ty_vars. cbn [andb]. cbn [app step] in R.
  destruct reset; cbn [next_usage next_expr]; fold u; (rewrite R; cbn [snd]; split; [reflexivity|]; split; [exact B|exact K]).
Qed.
Print Assumptions C116_use.
(** two uses of the same declaration share no key: the second usage number is new *)
Theorem C116_uses : forall d t t1 d1 t2 d2, rename_ty_vars true true d t = Some (t1, d1) -> rename_ty_vars true true d1 t = Some (t2, d2) ->
  apart [] t -> NoDup (map snd (keys t)) -> ~ In 0 (map snd (keys t)) -> vars (fun b k => if b then fst k <> 0 else fst k < next_usage d) [] t ->
  forall k, In k (keys t1) -> ~ In k (keys t2).
Proof.
  intros d t t1 d1 t2 d2 H1 H2 HA HN HZ HV k K1 K2. destruct (C116_use d t true HA HN HZ HV) as [x [E1 [_ X1]]]. rewrite E1 in H1. injection H1 as <- <-.
  assert (HV2 : vars (fun b k => if b then fst k <> 0 else fst k < next_usage d + 1) [] t).
  { revert HV. generalize (@nil nat). clear. induction t as [n k|c l IH|fa l IH] using ty_rect2; intros ns; cbn [vars].
    - destruct (existsb (Nat.eqb n) ns); [auto|]. lia.
    - induction IH as [|t l Ht _ IHl]; cbn [fold_right]; [auto|]. intros [H1 H2]. auto.
    - induction IH as [|t l Ht _ IHl]; cbn [fold_right]; [auto|]. intros [H1 H2]. auto. }
  destruct (C116_use (D (next_expr d) (next_usage d + 1)) t true HA HN HZ HV2) as [y [E2 [_ X2]]]. rewrite E2 in H2. injection H2 as <- <-.
  rewrite X1 in K1. rewrite X2 in K2. apply in_map_iff in K1 as [a [<- _]]. apply in_map_iff in K2 as [b [[= E _] _]]. cbn [next_usage] in E. lia.
Qed.
Print Assumptions C116_uses.
(** a clause that uses the name of an enclosing clause takes over the entry of the enclosing one: a later occurrence of the outer variable gets the key of the inner binder and is bound nowhere *)
Definition shadow (n c : nat) (k : key) : ty := Fun [(n, k)] [Fun [(n, k)] [Var n k]; Con c [Var n k]].
Theorem C116_shadow_refuted : forall d n c k reset, by_name [] (shadow n c k) = SFun 1 [SFun 1 [SVar 0 0]; SCon c [SVar 0 0]] /\
  exists t' d', rename_ty_vars false reset d (shadow n c k) = Some (t', d') /\ by_key [] t' = SFun 1 [SFun 1 [SVar 0 0]; SCon c [SFree n (-1, next_expr d + 1)]].
Proof.
  intros d n c k reset. split; [cbn [shadow by_name map locate pos fst length]; rewrite Nat.eqb_refl; reflexivity|]. destruct k as [u i].
  exists (Fun [(n, (-1, next_expr d))] [Fun [(n, (-1, next_expr d + 1))] [Var n (-1, next_expr d + 1)]; Con c [Var n (-1, next_expr d + 1)]]), (D (next_expr d + 1 + 1) (next_usage d)). split.
  - unfold rename_ty_vars, shadow. cbn -[Nat.eqb Z.add]. unfold assign. cbn [find sfind]. rewrite Nat.eqb_refl. cbn [set_found sfind]. rewrite Nat.eqb_refl. cbn [sset]. rewrite Nat.eqb_refl. cbn [tl find sfind]. rewrite Nat.eqb_refl. reflexivity.
  - cbn [by_key map snd length locate pos]. assert (R : forall x : key, keqb x x = true) by (intros x; apply keqb_spec; reflexivity). rewrite R.
    assert (keqb (-1, next_expr d + 1) (-1, next_expr d) = false) as ->; [|reflexivity]. unfold keqb. cbn [fst snd]. rewrite Z.eqb_refl. cbn [andb]. apply Z.eqb_neq. lia.
Qed.
Print Assumptions C116_shadow_refuted.
(** forall(T, U) [T, forall(V) V (T)] (U, x) *)
Definition t0 : ty := Fun [(1%nat, (0, 0)); (2%nat, (0, 0))] [Var 1 (0, 0); Fun [(3%nat, (0, 0))] [Var 3 (0, 0); Var 1 (0, 0)]; Con 7 [Var 2 (0, 0); Var 9 (0, 0)]].
Example ex_decl : rename_ty_vars false true (D 5 3) t0 =
  Some (Fun [(1%nat, (-1, 5)); (2%nat, (-1, 6))] [Var 1 (-1, 5); Fun [(3%nat, (-1, 7))] [Var 3 (-1, 7); Var 1 (-1, 5)]; Con 7 [Var 2 (-1, 6); Var 9 (0, 0)]], D 8 3).
Proof. reflexivity. Qed.
Example ex_use : option_map fst (match rename_ty_vars false true (D 5 3) t0 with Some (t, d) => rename_ty_vars true true d t | None => None end) =
  Some (Fun [(1%nat, (4, 5)); (2%nat, (4, 6))] [Var 1 (4, 5); Fun [(3%nat, (4, 7))] [Var 3 (4, 7); Var 1 (4, 5)]; Con 7 [Var 2 (4, 6); Var 9 (0, 0)]]) /\
  by_name [] t0 = SFun 2 [SVar 0 0; SFun 1 [SVar 0 0; SVar 1 0]; SCon 7 [SVar 0 1; SFree 9 (0, 0)]] /\ rename_ty_vars true true (D 5 3) t0 = None.
Proof. repeat split. Qed.

(** what a use keeps and refuses, for every type: the order and names of the variables; the keys of variables without a usage yet; a clause that was never numbered is an error *)
Definition kept (a b : nat * key) : Prop := fst b = fst a /\ (fst (snd a) = 0 -> b = a).
Lemma load_zero u : forall fa s fa' s', load (Use u) s fa = Some (fa', s') -> ~ In 0 (map snd (map snd fa)).
Proof.
  induction fa as [|[n [v i]] fa IH]; intros s fa' s' H; [intros []|]. cbn [load] in H. destruct (Z.eqb_spec i 0) as [|Ni]; [discriminate|].
  destruct (load (Use u) (assign n (u, i) (fst s), snd s) fa) as [[fa1 s1]|] eqn:E; [|discriminate]. cbn [map snd In]. intros [K|K]; [congruence|]. exact (IH _ _ _ E K).
Qed.
Lemma rn_kept u : forall t s t' s', rn (Use u) s t = Some (t', s') -> Forall2 kept (leaves t) (leaves t') /\ ~ In 0 (map snd (keys t)).
Proof.
  induction t as [n k|c l IH|fa l IH] using ty_rect2; intros s t' s' H.
  - cbn [rn] in H. injection H as <- <-. split; [|intros []]. unfold rename_var. destruct (Z.eqb_spec (fst k) 0) as [E|E].
    + constructor; [split; reflexivity|constructor].
    + destruct (find n (fst s)) as [k'|]; (constructor; [split; [reflexivity|intros F; cbn [snd] in F; congruence]|constructor]).
  - rewrite rn_con in H. destruct (rnl (Use u) s l) as [[l' s1]|] eqn:E; [|discriminate]. injection H as <- <-. cbn [leaves keys].
    revert s l' s1 E. induction IH as [|t l Ht Hl IHl]; intros s l' s1 E; [injection E as <- <-; split; [constructor|intros []]|].
    rewrite rnl_cons in E. destruct (rn (Use u) s t) as [[t1 s2]|] eqn:E1; [|discriminate]. destruct (rnl (Use u) s2 l) as [[l1 s3]|] eqn:E2; [|discriminate]. injection E as <- <-.
    destruct (Ht _ _ _ E1) as [A1 A2]. destruct (IHl _ _ _ E2) as [B1 B2]. cbn [flat_map]. split; [apply Forall2_app; assumption|]. rewrite map_app, in_app_iff. tauto.
  - assert (G : forall s l' s1, rnl (Use u) s l = Some (l', s1) -> Forall2 kept (flat_map leaves l) (flat_map leaves l') /\ ~ In 0 (map snd (flat_map keys l))).
    { clear H. induction IH as [|t l Ht Hl IHl]; intros s0 l' s1 E; [injection E as <- <-; split; [constructor|intros []]|].
      rewrite rnl_cons in E. destruct (rn (Use u) s0 t) as [[t1 s2]|] eqn:E1; [|discriminate]. destruct (rnl (Use u) s2 l) as [[l1 s3]|] eqn:E2; [|discriminate]. injection E as <- <-.
      destruct (Ht _ _ _ E1) as [A1 A2]. destruct (IHl _ _ _ E2) as [B1 B2]. cbn [flat_map]. split; [apply Forall2_app; assumption|]. rewrite map_app, in_app_iff. tauto. }
    destruct fa as [|p fa].
    + rewrite rn_fun0 in H. destruct (rnl (Use u) s l) as [[l' s1]|] eqn:E; [|discriminate]. injection H as <- <-. cbn [leaves keys map app]. exact (G _ _ _ E).
    + rewrite rn_fun in H. destruct (load (Use u) ([] :: fst s, snd s) (p :: fa)) as [[fa' s1]|] eqn:L; [|discriminate]. destruct (rnl (Use u) s1 l) as [[l' s2]|] eqn:E; [|discriminate]. injection H as <- <-.
      cbn [leaves keys]. destruct (G _ _ _ E) as [A B]. split; [exact A|]. rewrite map_app, in_app_iff. apply load_zero in L. tauto.
Qed.
Theorem C116_formal : forall d t reset t' d', rename_ty_vars true reset d t = Some (t', d') -> Forall2 kept (leaves t) (leaves t').
Proof.
  intros d t reset t' d' H. unfold rename_ty_vars in H. match type of H with context[rn ?m ?s t] => destruct (rn m s t) as [[t1 s1]|] eqn:E end; [|discriminate]. injection H as <- <-. exact (proj1 (rn_kept _ _ _ _ _ E)).
Qed.
Print Assumptions C116_formal.
Theorem C116_unnumbered : forall d t reset, In 0 (map snd (keys t)) -> rename_ty_vars true reset d t = None.
Proof.
  intros d t reset H. unfold rename_ty_vars. match goal with |- context[rn ?m ?s t] => destruct (rn m s t) as [[t1 s1]|] eqn:E end; [|reflexivity]. destruct (proj2 (rn_kept _ _ _ _ _ E) H).
Qed.
Print Assumptions C116_unnumbered.
