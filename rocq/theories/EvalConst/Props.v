From Coq Require Import ZArith List Bool Lia ZifyBool.
From Verif.EvalConst Require Import Model Spec Proofs.
Import ListNotations.
Open Scope Z_scope.
Definition sound_full : Prop := forall rho e v g, c_types e -> eval e = Done v true g -> value rho e = Some v.
(** A value reported as known and evaluable is the value of the C expression, when that value is defined and no conversion or unsigned operation changes a value. *)
Theorem C58_sound_partial : forall rho e v w, c_types e -> no_wrap rho e -> eval e = Done v true true -> value rho e = Some w -> v = w.
Proof.
  intros rho. induction e as [t z|z|k z|i| |ia a IHa b IHb|a IHa b IHb c IHc|t a IHa|t o a IHa|t o a IHa b IHb]; cbn [c_types eval value]; intros v w C N E V; try discriminate.
  - destruct N as [N _]. cbn [value] in N. destruct C as [C F]. injection E as <-. injection V as <-. specialize (N _ eq_refl). pose proof (lo_half t C). apply bits_id. unfold fits in F. change half with (2 ^ 63) in *. lia.
  - destruct N as [N _]. cbn [value] in N. destruct k; [|discriminate]. injection E as <-. injection V as <-. apply bits_id. unfold fits in C. cbn [lo hi] in C. change half with (2 ^ (64 - 1)). lia.
  - cbn [no_wrap] in N. destruct N as (_ & Na & Nb). destruct C as [Ca Cb]. destruct (eval a) as [|x kx gx]; [discriminate|]. destruct gx; [|discriminate]. cbn [negb] in E. destruct (eval b) as [|y ky gy]; [discriminate|]. destruct gy; [|discriminate]. cbn [negb] in E. destruct kx; [|discriminate]. destruct ky; [|discriminate]. cbn [andb negb] in E. injection E as <-.
    destruct (value rho a) as [x'|] eqn:VA; [|discriminate]. rewrite (IHa x x' Ca Na eq_refl eq_refl). destruct (Bool.eqb (x' =? 0) ia) eqn:B.
    + unfold bool_ in V. injection V as <-. unfold nz, b2z. destruct ia, (x' =? 0); try discriminate; reflexivity.
    + destruct (value rho b) as [y'|] eqn:VB; [|discriminate]. rewrite (IHb y y' Cb (Nb _ eq_refl B) eq_refl eq_refl). unfold bool_ in V. injection V as <-. unfold nz, b2z. destruct ia, (x' =? 0); try discriminate; reflexivity.
  - cbn [no_wrap] in N. destruct N as (_ & Na & Nb). destruct C as (Ca & Cb & Cc). destruct (eval a) as [|x kx gx]; [discriminate|]. destruct gx; [|discriminate]. cbn [negb] in E. destruct (eval b) as [|y ky gy]; [discriminate|]. destruct gy; [|discriminate]. cbn [negb] in E. destruct (eval c) as [|z kz gz]; [discriminate|]. destruct gz; [|discriminate]. cbn [negb] in E.
    destruct kx; [|discriminate]. destruct ky; [|discriminate]. destruct kz; [|discriminate]. cbn [andb negb] in E. injection E as <-. destruct (value rho a) as [x'|] eqn:VA; [|discriminate]. rewrite (IHa x x' Ca Na eq_refl eq_refl). specialize (Nb _ eq_refl). unfold nz. destruct (x' =? 0); cbn [negb]; eauto.
  - cbn [no_wrap] in N. destruct N as (_ & Na & Nb). destruct C as [Ct Ca]. destruct (value rho a) as [x'|] eqn:VA; [|discriminate]. injection V as <-. rewrite (conv_id t x' Ct (Nb _ eq_refl)). eauto.
  - cbn [no_wrap] in N. destruct N as (NV & Na & Nb). destruct C as [Ct Ca]. destruct (eval a) as [|x kx gx]; [discriminate|]. destruct gx; [|discriminate]. cbn [negb] in E. destruct kx; [|discriminate]. cbn [negb] in E. cbn [value] in NV. destruct (value rho a) as [x'|] eqn:VA; [|discriminate]. assert (x = x') by eauto. subst x'. eapply un_sound; eauto.
  - cbn [no_wrap] in N. destruct N as (NV & Na & Nb & Nc). destruct C as (Ct & Ca & Cb). destruct (eval a) as [|x kx gx]; [discriminate|]. destruct gx; [|discriminate]. cbn [negb] in E. destruct (eval b) as [|y ky gy]; [discriminate|]. destruct gy; [|discriminate]. cbn [negb] in E. destruct kx; [|discriminate]. destruct ky; [|discriminate]. cbn [andb negb] in E. cbn [value] in NV.
    destruct (value rho a) as [x'|] eqn:VA; [|discriminate]. destruct (value rho b) as [y'|] eqn:VB; [|discriminate]. assert (x = x') by eauto. assert (y = y') by eauto. subst x' y'. eapply bin_sound; eauto.
Qed.
Print Assumptions C58_sound_partial.
(** An expression reported as evaluable contains neither variables nor calls. *)
Theorem C58_evaluable : forall e v k, eval e = Done v k true -> closed e.
Proof.
  induction e as [t z|z|k0 z|i| |ia a IHa b IHb|a IHa b IHb c IHc|t a IHa|t o a IHa|t o a IHa b IHb]; cbn [eval closed]; intros v k E; auto; try discriminate.
  - destruct (eval a) as [|x kx []]; try discriminate. destruct (eval b) as [|y ky []]; try discriminate. split; eauto.
  - destruct (eval a) as [|x kx []]; try discriminate. destruct (eval b) as [|y ky []]; try discriminate. destruct (eval c) as [|z kz []]; try discriminate. repeat split; eauto.
  - eauto.
  - destruct (eval a) as [|x kx []]; try discriminate. eauto.
  - destruct (eval a) as [|x kx []]; try discriminate. destruct (eval b) as [|y ky []]; try discriminate. split; eauto.
Qed.
Print Assumptions C58_evaluable.
(** Expressions made of constants, casts and the listed operators are always reported as known and evaluable, unless the compiler's own calculation is undefined. *)
Theorem C58_complete : forall e, plain e -> eval e = Ub \/ exists v, eval e = Done v true true.
Proof.
  assert (CH : forall z, chk z = Ub \/ exists v, chk z = Done v true true) by (intros z; unfold chk; destruct ((- half <=? z) && (z <? half)); eauto).
  induction e as [t z|z|k0 z|i| |ia a IHa b IHb|a IHa b IHb c IHc|t a IHa|t o a IHa|t o a IHa b IHb]; cbn [eval plain]; intros P; try contradiction.
  - eauto.
  - subst k0. eauto.
  - destruct P as [A B]. destruct (IHa A) as [-> | [x ->]]; auto. destruct (IHb B) as [-> | [y ->]]; auto. right. eexists. reflexivity.
  - destruct P as (A & B & D). destruct (IHa A) as [-> | [x ->]]; auto. destruct (IHb B) as [-> | [y ->]]; auto. destruct (IHc D) as [-> | [z ->]]; auto. right. eexists. reflexivity.
  - auto.
  - destruct P as [A B]. destruct (IHa A) as [-> | [x ->]]; auto. cbn [negb]. destruct o; cbn [un]; eauto. congruence.
  - destruct P as (A & B & D). destruct (IHa A) as [-> | [x ->]]; auto. destruct (IHb B) as [-> | [y ->]]; auto. cbn [negb andb]. destruct o; cbn [bin]; auto; try (repeat match goal with |- context [if ?b then _ else _] => destruct b end; eauto; fail). congruence.
Qed.
Print Assumptions C58_complete.
(** Without these conditions it is not. *)
Theorem C58_sound_refuted : ~ sound_full.
Proof.
  intros H. specialize (H (fun _ => 5) (Bin (Int true 32) Add (VarE 0) (Const (Int true 32) 1)) 0 false). assert (E : Some 6 = Some 0); [|discriminate]. apply H; auto. repeat split; cbn; lia.
Qed.
Print Assumptions C58_sound_refuted.
(** hasKnownValue alone says nothing: an operator applied to a variable is reported as not evaluable but with the known value 0. *)
Theorem C58_known_refuted : exists e v, c_types e /\ eval e = Done v true false /\ value (fun _ => 5) e <> Some v.
Proof.
  exists (Bin (Int true 32) Add (VarE 0) (Const (Int true 32) 1)), 0. repeat split; cbn; try lia; discriminate.
Qed.
Print Assumptions C58_known_refuted.
(** Every expression reported as not evaluable whose outermost operator is a listed one or a logical one is reported with the known value 0. *)
Theorem C58_known_zero : forall t o a b v k, eval (Bin t o a b) = Done v k false -> o <> BOther -> v = 0 /\ k = true.
Proof.
  intros t o a b v k H O. cbn [eval] in H. destruct (eval a) as [|x kx gx]; [discriminate|]. destruct gx; cbn [negb] in H; [|injection H as <- <-; auto]. destruct (eval b) as [|y ky gy]; [discriminate|]. destruct gy; cbn [negb] in H; [|injection H as <- <-; auto]. destruct (kx && ky); cbn [negb] in H; [|discriminate].
  exfalso. destruct o; cbn [bin] in H; unfold chk in H; repeat match type of H with context [if ?b then _ else _] => destruct b end; congruence.
Qed.
Print Assumptions C58_known_zero.
(** So the dimensions n + 1 and m + 2 of two arrays count as the same, whatever n and m are. *)
Theorem C58_dimensions_refuted : exists e1 e2, c_types e1 /\ c_types e2 /\ match_static e1 e2 = true /\ exists rho, value rho e1 <> value rho e2 /\ value rho e1 <> None /\ value rho e2 <> None.
Proof.
  exists (Bin (Int true 32) Add (VarE 0) (Const (Int true 32) 1)), (Bin (Int true 32) Add (VarE 1) (Const (Int true 32) 2)). repeat split; cbn; try lia. exists (fun i => if Nat.eqb i 0 then 10 else 20). repeat split; discriminate.
Qed.
Print Assumptions C58_dimensions_refuted.
(** Dimensions matched on evaluable values are the same. *)
Theorem C58_dimensions_partial : forall rho e1 e2 v1 v2 w1 w2, c_types e1 -> c_types e2 -> no_wrap rho e1 -> no_wrap rho e2 -> eval e1 = Done v1 true true -> eval e2 = Done v2 true true ->
  match_static e1 e2 = true -> value rho e1 = Some w1 -> value rho e2 = Some w2 -> w1 = w2.
Proof.
  intros rho e1 e2 v1 v2 w1 w2 C1 C2 N1 N2 E1 E2 M V1 V2. pose proof (C58_sound_partial _ _ _ _ C1 N1 E1 V1). pose proof (C58_sound_partial _ _ _ _ C2 N2 E2 V2). unfold match_static in M. rewrite E1, E2 in M. lia.
Qed.
Print Assumptions C58_dimensions_partial.
(** A division by zero is reported as the known value 0. *)
Theorem C58_zero_division_refuted : exists e, c_types e /\ closed e /\ eval e = Done 0 true true /\ forall rho, value rho e = None.
Proof. exists (Bin (Int true 32) Div (Const (Int true 32) 7) (Const (Int true 32) 0)). repeat split; cbn; lia. Qed.
Print Assumptions C58_zero_division_refuted.
(** Conversions are ignored: (unsigned char)300 is reported as 300. *)
Theorem C58_cast_refuted : exists e v w, c_types e /\ closed e /\ eval e = Done v true true /\ (forall rho, value rho e = Some w) /\ v <> w.
Proof. exists (Cast (Int false 8) (Const (Int true 32) 300)), 300, 44. repeat split; cbn; try lia; discriminate. Qed.
Print Assumptions C58_cast_refuted.
(** Unsigned arithmetic does not wrap around: 0u - 1u is reported as -1, and 0u - 1u > 0u as false. *)
Theorem C58_unsigned_refuted : exists e v w, c_types e /\ closed e /\ eval e = Done v true true /\ (forall rho, value rho e = Some w) /\ v <> w.
Proof.
  set (u := Int false 32). exists (Bin u Gt (Bin u Sub (Const u 0) (Const u 1)) (Const u 0)), 0, 1. repeat split; cbn; try lia; discriminate.
Qed.
Print Assumptions C58_unsigned_refuted.
(** An operand that C does not evaluate can make the compiler's own calculation undefined. *)
Theorem C58_no_ub_refuted : exists e, c_types e /\ closed e /\ (forall rho, value rho e = Some 0) /\ eval e = Ub.
Proof.
  exists (Logical true (Const (Int true 32) 0) (Bin (Int true 32) Shl (Const (Int true 32) 1) (Const (Int true 32) 100))). repeat split; cbn; lia.
Qed.
Print Assumptions C58_no_ub_refuted.
(** The compiler's calculation is defined when every operand is, whether C evaluates it or not, and nothing wraps around. *)
Fixpoint all_defined (rho : nat -> Z) (e : expr) : Prop :=
  (value rho e <> None /\ no_wrap rho e) /\
  match e with
  | Logical _ a b => all_defined rho a /\ all_defined rho b
  | Cond a b c => all_defined rho a /\ all_defined rho b /\ all_defined rho c
  | Cast _ a | Un _ _ a => all_defined rho a
  | Bin _ _ a b => all_defined rho a /\ all_defined rho b
  | _ => True
  end.
Theorem C58_no_ub_partial : forall rho e, c_types e -> all_defined rho e -> eval e <> Ub.
Proof.
  intros rho. assert (W : forall e, all_defined rho e -> value rho e <> None /\ no_wrap rho e) by (intros []; cbn [all_defined]; tauto).
  induction e as [t z|z|k0 z|i| |ia a IHa b IHb|a IHa b IHb c IHc|t a IHa|t o a IHa|t o a IHa b IHb]; cbn [c_types eval]; intros C D; try discriminate.
  - destruct D as (_ & Da & Db). destruct C as [Ca Cb]. specialize (IHa Ca Da). specialize (IHb Cb Db). destruct (eval a) as [|x kx []]; try discriminate; try congruence. destruct (eval b) as [|y ky []]; try discriminate; try congruence. cbn [negb]. destruct (negb (kx && ky)); discriminate.
  - destruct D as (_ & Da & Db & Dc). destruct C as (Ca & Cb & Cc). specialize (IHa Ca Da). specialize (IHb Cb Db). specialize (IHc Cc Dc). destruct (eval a) as [|x kx []]; try discriminate; try congruence. destruct (eval b) as [|y ky []]; try discriminate; try congruence. destruct (eval c) as [|z kz []]; try discriminate; try congruence. cbn [negb]. destruct (negb (kx && ky && kz)); discriminate.
  - destruct D as (_ & Da). destruct C. auto.
  - destruct D as ((Dv & Dn) & Da). destruct C as [Ct Ca]. specialize (IHa Ca Da). destruct (W a Da) as [Va Na]. destruct (eval a) as [|x [] []] eqn:E; try discriminate; try congruence. cbn [negb]. cbn [value] in Dv. destruct (value rho a) as [x'|] eqn:VA; [|congruence]. pose proof (C58_sound_partial rho a x x' Ca Na E VA). subst x'.
    cbn [no_wrap value] in Dn. rewrite VA in Dn. destruct Dn as (NV & _ & Nw). specialize (Nw _ eq_refl). destruct o; cbn [un]; try discriminate. cbn [cun no_wrap_un] in *. rewrite (arith_id t _ Ct Nw) in *. specialize (NV _ eq_refl). rewrite (chk_fits t (- x) (- x) Ct Nw); [discriminate|apply arith_id; auto|exact NV].
  - destruct D as ((Dv & Dn) & Da & Db). destruct C as (Ct & Ca & Cb). specialize (IHa Ca Da). specialize (IHb Cb Db). destruct (W a Da) as [Va Na]. destruct (W b Db) as [Vb Nb]. destruct (eval a) as [|x kx []] eqn:E; try discriminate; try congruence. destruct (eval b) as [|y ky []] eqn:E'; try discriminate; try congruence. cbn [negb]. destruct kx; cbn [andb negb]; [|discriminate]. destruct ky; cbn [negb]; [|discriminate].
    cbn [value] in Dv. destruct (value rho a) as [x'|] eqn:VA; [|congruence]. destruct (value rho b) as [y'|] eqn:VB; [|congruence]. pose proof (C58_sound_partial rho a x x' Ca Na E VA). pose proof (C58_sound_partial rho b y y' Cb Nb E' VB). subst x' y'.
    cbn [no_wrap value] in Dn. rewrite VA, VB in Dn. destruct Dn as (NV & _ & _ & Nw). specialize (Nw _ _ eq_refl eq_refl). pose proof (width64 t Ct). destruct o; cbn [bin cbin no_wrap_bin] in *; try discriminate.
    + rewrite (arith_id t _ Ct Nw) in *. specialize (NV _ eq_refl). rewrite (chk_fits t _ _ Ct Nw (arith_id t _ Ct Nw) NV). discriminate.
    + rewrite (arith_id t _ Ct Nw) in *. specialize (NV _ eq_refl). rewrite (chk_fits t _ _ Ct Nw (arith_id t _ Ct Nw) NV). discriminate.
    + rewrite (arith_id t _ Ct Nw) in *. specialize (NV _ eq_refl). rewrite (chk_fits t _ _ Ct Nw (arith_id t _ Ct Nw) NV). discriminate.
    + unfold nz. destruct (y =? 0); cbn [negb]; [discriminate|]. rewrite (arith_id t _ Ct Nw) in *. specialize (NV _ eq_refl). rewrite (chk_fits t _ _ Ct Nw (arith_id t _ Ct Nw) NV). discriminate.
    + unfold nz. destruct (y =? 0); cbn [negb]; [discriminate|]. destruct ((x =? - half) && (y =? -1)) eqn:Q; [|discriminate]. exfalso. replace (Z.quot x y) with half in Nw by (replace x with (- half) by lia; replace y with (-1) by lia; reflexivity). unfold half in Nw. lia.
    + destruct ((0 <=? y) && (y <? width t)) eqn:Q; [|congruence]. replace ((0 <=? y) && (y <? 64)) with true by lia. discriminate.
    + destruct ((0 <=? y) && (y <? width t)) eqn:Q; [|congruence]. replace ((0 <=? y) && (y <? 64)) with true by lia. discriminate.
Qed.
Print Assumptions C58_no_ub_partial.
(** ( 1 << 4 | 3 ) == 19 && ! ( -7 % 4 > 0 ) ? -7 / 2 : 1 *)
Definition i32 := Int true 32.
Definition c (v : Z) := Const i32 v.
Definition ex : expr := Cond (Logical true (Bin i32 Eq (Bin i32 Or (Bin i32 Shl (c 1) (c 4)) (c 3)) (c 19)) (Un i32 Not (Bin i32 Gt (Bin i32 Mod (Un i32 Minus (c 7)) (c 4)) (c 0)))) (Bin i32 Div (Un i32 Minus (c 7)) (c 2)) (c 1).
Example C58_ex : eval ex = Done (-3) true true /\ value (fun _ => 0) ex = Some (-3).
Proof. split; reflexivity. Qed.
Example C58_ex_sizeof : eval (Bin (Int false 64) Mul (Sizeof 8) (Const (Int false 64) 4)) = Done 0 false true.
Proof. reflexivity. Qed.
(** An operator that is not listed, applied to known values, is reported as neither known nor evaluable. *)
Theorem C58_unlisted : forall t a b x y, eval a = Done x true true -> eval b = Done y true true -> eval (Bin t BOther a b) = Done 0 false false /\ eval (Un t UOther a) = Done 0 false false.
Proof. intros t a b x y A B. cbn [eval]. rewrite A, B. auto. Qed.
Print Assumptions C58_unlisted.
