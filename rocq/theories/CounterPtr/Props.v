(* C81: counter_ptr. *)

From Coq Require Import List Bool Arith ZArith Lia ZifyBool.
From Verif.CounterPtr Require Import Model Spec Proofs.
Import ListNotations.

(* In every execution of a program that touches only pointers it can name and
   has fewer than 2^32 - 2 of them, nothing undefined happens. *)
Theorem C81_defined : forall l s o, frun l s -> fine s o -> exists s1, step s o = Ok s1.
Proof.
  intros l s o R F. destruct (inv_frun _ _ R) as (H & NT & SM).
  destruct (step_ok s o H NT SM F) as (s1 & E & _). eauto.
Qed.
Print Assumptions C81_defined.

(* No pointer dangles, and the counter of an object is the number of pointers to
   it, never 0: an object exists as long as, and only as long as, a pointer to it. *)
Theorem C81_counts : forall l s, frun l s ->
  (forall p o, In (p, Some o) (ptrs s) -> live s o) /\
  (forall o, live s o -> exists c k, olookup o (objs s) = Some (c, k) /\ c = Z.of_nat (cnt (ptrs s) o) /\ 0 < cnt (ptrs s) o) /\
  (forall o, live s o <-> exists p, In (p, Some o) (ptrs s)).
Proof.
  intros l s R. destruct (inv_frun _ _ R) as (H & _ & _).
  assert (LV : forall o, live s o <-> olookup o (objs s) <> None).
  { intros o. unfold live. pose proof (olookup_none (objs s) o). destruct (olookup o (objs s)).
    - split; [discriminate|]. intros _. destruct (in_dec Nat.eq_dec o (map fst (objs s))); [auto|]. apply H0 in n. discriminate.
    - split; [|congruence]. intros I. destruct (proj1 H0 eq_refl I). }
  split; [|split].
  - intros p o I. apply LV. eapply i_tgt; eauto.
  - intros o L. apply LV in L. pose proof (live_pos _ _ H L) as P. destruct (olookup o (objs s)) as [[c k]|] eqn:E; [|congruence].
    exists c, k. split; [reflexivity|]. split; [eapply i_cnt; eauto|exact P].
  - intros o. rewrite LV. split.
    + intros L. apply cnt_pos. apply live_pos; auto.
    + intros (p & I). eapply i_tgt; eauto.
Qed.
Print Assumptions C81_counts.

(* Dereferencing. *)
Theorem C81_deref : forall l s p, frun l s -> named s p -> exists v, lookup p (ptrs s) = Some v /\ deref s p = Some v.
Proof.
  intros l s p R N. destruct (inv_frun _ _ R) as (H & _ & _). destruct (named_lookup _ _ N) as [(v & E) _].
  exists v. split; [exact E|]. unfold deref. rewrite E. destruct v as [o|]; [|reflexivity].
  pose proof (i_tgt _ _ _ H p o (lookup_in _ _ _ E)) as T. destruct (olookup o (objs s)); [reflexivity|congruence].
Qed.
Print Assumptions C81_deref.

(* A step gives the pointer it writes its new value, and leaves all others
   alone but those inside objects that it destroys. *)
Theorem C81_effect : forall l s o s1, frun l s -> fine s o -> step s o = Ok s1 ->
  lookup (written s o) (ptrs s1) = value s o /\
  forall q, q <> written s o ->
    lookup q (ptrs s1) = lookup q (ptrs s) \/
    exists x f, q = Field x f /\ (live s x <-> ~ live s1 x) /\ lookup q (ptrs s1) = match o with ONew _ _ => Some None | _ => None end.
Proof.
  intros l s o s1 R F E. destruct (inv_frun _ _ R) as (H & NT & SM).
  assert (LV : forall s o, live s o <-> olookup o (objs s) <> None).
  { clear. intros s o. unfold live. pose proof (olookup_none (objs s) o). destruct (olookup o (objs s)).
    - split; [discriminate|]. intros _. destruct (in_dec Nat.eq_dec o (map fst (objs s))); [auto|]. apply H in n. discriminate.
    - split; [|congruence]. intros I. destruct (proj1 H eq_refl I). }
  destruct (step_ok s o H NT SM F) as (s2 & E2 & H2 & NT2 & A). rewrite E in E2. injection E2 as <-.
  assert (G : After s s1 (written s o) (value s o) ->
    lookup (written s o) (ptrs s1) = value s o /\
    forall q, q <> written s o -> lookup q (ptrs s1) = lookup q (ptrs s) \/
      exists x f, q = Field x f /\ (live s x <-> ~ live s1 x) /\ lookup q (ptrs s1) = None).
  { intros B. pose proof (a_fld _ _ _ _ H B) as FL. destruct B. split.
    - destruct (value s o); [apply in_lookup; [apply H2|assumption]|]. apply lookup_none. assumption.
    - intros q D. destruct (lookup q (ptrs s1)) as [w|] eqn:E1.
      + left. symmetry. apply in_lookup; [apply H|]. apply a_old; [|exact D]. apply lookup_in. exact E1.
      + destruct (lookup q (ptrs s)) as [w|] eqn:E0; [|auto]. right. apply lookup_in in E0.
        destruct q as [x|x f|].
        * pose proof (in_lookup _ _ _ (i_nd _ _ _ H2) (a_var _ _ E0 D eq_refl)). congruence.
        * exists x, f. split; [reflexivity|]. split; [|reflexivity]. rewrite !LV.
          assert (LS : olookup x (objs s) <> None).
          { destruct (i_fld1 _ _ _ H x f (key_in _ _ _ E0)) as (c & k & Q & _). congruence. }
          split; [|tauto]. intros _ L1. pose proof (FL x f w E0 D L1) as Q.
          pose proof (in_lookup _ _ _ (i_nd _ _ _ H2) Q). congruence.
        * destruct (NT (key_in _ _ _ E0)). }
  destruct o as [x|x k|x q|x|p q|p]; try (apply G; exact A).
  clear G A. cbn [fine] in F. destruct (new_ok s x k H NT F) as (s2 & E2 & _ & _ & PT & OB & _).
  rewrite E in E2. injection E2 as <-. cbn [written value]. split.
  - apply in_lookup; [apply H2|]. rewrite PT. left. reflexivity.
  - intros q D. destruct (lookup q (ptrs s1)) as [w|] eqn:E1.
    + apply lookup_in in E1. rewrite PT in E1. destruct E1 as [E1|E1]; [congruence|]. apply in_app_iff in E1. destruct E1 as [E1|E1].
      * right. apply in_map_iff in E1. destruct E1 as (f & Q & _). injection Q as <- <-. exists (next s), f.
        split; [reflexivity|]. split; [|reflexivity]. rewrite !LV, OB. unfold olookup at 2. cbn [find fst]. rewrite Nat.eqb_refl.
        split; [|intros Q; destruct Q; discriminate]. intros L. pose proof (i_next _ _ _ H _ L). lia.
      * left. symmetry. apply in_lookup; [apply H|exact E1].
    + left. destruct (lookup q (ptrs s)) as [w|] eqn:E0; [|reflexivity]. apply lookup_in in E0.
      assert (I : In (q, w) (ptrs s1)) by (rewrite PT; right; apply in_app_iff; auto).
      pose proof (in_lookup _ _ _ (i_nd _ _ _ H2) I). congruence.
Qed.
Print Assumptions C81_effect.

(* A destroyed object does not come back, so it is destroyed once. *)
Theorem C81_once : forall l s o s1 x, frun l s -> fine s o -> step s o = Ok s1 ->
  x < next s -> ~ live s x -> x < next s1 /\ ~ live s1 x.
Proof.
  intros l s o s1 x R F E L ND. destruct (inv_frun _ _ R) as (H & NT & SM).
  destruct (step_ok s o H NT SM F) as (s2 & E2 & H2 & NT2 & A). rewrite E in E2. injection E2 as <-.
  assert (G : After s s1 (written s o) (value s o) -> x < next s1 /\ ~ live s1 x).
  { intros []. split; [lia|]. intros Q. apply ND. unfold live in *.
    destruct (olookup x (objs s1)) as [[c k]|] eqn:E1; [|apply olookup_none in E1; contradiction].
    destruct (a_objs _ _ _ E1) as (d & E0). destruct (in_dec Nat.eq_dec x (map fst (objs s))) as [I|I]; [exact I|].
    apply olookup_none in I. congruence. }
  destruct o as [y|y k|y q|y|p q|p]; try (apply G; exact A).
  cbn [fine] in F. destruct (new_ok s y k H NT F) as (s2 & E2 & _ & _ & PT & OB & NX).
  rewrite E in E2. injection E2 as <-. split; [lia|]. unfold live in *. rewrite OB. cbn [map fst In]. intros [Q|Q]; [lia|auto].
Qed.
Print Assumptions C81_once.

(* With all variables gone, nothing is left unless there are cycles. *)
Theorem C81_no_leak : forall l s, frun l s -> (forall x, ~ In (Var x) (map fst (ptrs s))) -> acyclic s -> objs s = [] /\ ptrs s = [].
Proof.
  intros l s R NV (rank & AC). destruct (inv_frun _ _ R) as (H & NT & SM).
  assert (NO : forall n o, olookup o (objs s) <> None -> (forall x, olookup x (objs s) <> None -> rank x <= n) -> n < rank o + S n -> False).
  { intros n o LO MX _.
    (* climb from o: every object has a pointer to it, from an object of higher rank *)
    assert (UP : forall d, exists y, olookup y (objs s) <> None /\ d <= rank y).
    { induction d as [|d (y & LY & RY)]; [exists o; split; [exact LO|lia]|].
      pose proof (live_pos _ _ H LY) as P. apply cnt_pos in P. destruct P as (p & P).
      destruct p as [x|z f|]; [destruct (NV x (key_in _ _ _ P))| |destruct (NT (key_in _ _ _ P))].
      exists z. pose proof (AC _ _ _ P). split; [|lia].
      destruct (i_fld1 _ _ _ H z f (key_in _ _ _ P)) as (c & k & Q & _). congruence. }
    destruct (UP (S n)) as (y & LY & RY). specialize (MX y LY). lia. }
  assert (OB : objs s = []).
  { assert (CS : objs s = [] \/ exists o v ob, objs s = (o, v) :: ob) by (destruct (objs s) as [|[]]; eauto).
    destruct CS as [E|(o & v & ob & E)]; [exact E|]. exfalso.
    assert (BD : exists n, forall x, olookup x (objs s) <> None -> rank x <= n).
    { exists (list_max (map rank (map fst (objs s)))). intros x Q.
      assert (I : In x (map fst (objs s))) by (destruct (in_dec Nat.eq_dec x (map fst (objs s))); [auto|apply olookup_none in n; congruence]).
      pose proof (proj1 (list_max_le (map rank (map fst (objs s))) _) (Nat.le_refl _)) as X. rewrite Forall_forall in X. apply X.
      apply in_map. exact I. }
    destruct BD as (n & BD). apply (NO n o).
    - rewrite E. unfold olookup. cbn [find fst]. rewrite Nat.eqb_refl. discriminate.
    - intros x Q. apply BD. exact Q.
    - lia. }
  split; [exact OB|]. assert (CS : ptrs s = [] \/ exists p, In p (map fst (ptrs s))).
  { destruct (ptrs s) as [|e pt]; [auto|]. right. exists (fst e). left. reflexivity. }
  destruct CS as [E|(p & K)]; [exact E|]. exfalso.
  destruct p as [x|o f|]; [apply (NV x K)| |apply (NT K)].
  destruct (i_fld1 _ _ _ H o f K) as (c & k & Q & _). rewrite OB in Q. discriminate.
Qed.
Print Assumptions C81_no_leak.

(* A list 0 -> 1 -> 2, walked by x = ( *x ).next: the first node goes, the rest
   stays, although the source of the assignment is inside the node that goes. *)
Definition list3 : list op :=
  [ONew 0 1; ONew 1 1; ONew 2 1; OAssign (Field 0 0) (Var 1); OAssign (Field 1 0) (Var 2); ODrop 1; ODrop 2].
Example C81_walk :
  match exec start (list3 ++ [OAssign (Var 0) (Field 0 0)]) with
  | Ok s => lookup (Var 0) (ptrs s) = Some (Some 1) /\ objs s = [(2, (1%Z, 1)); (1, (1%Z, 1))] /\
            lookup (Field 1 0) (ptrs s) = Some (Some 2) /\ lookup (Field 0 0) (ptrs s) = None
  | _ => False
  end.
Proof. vm_compute. repeat split. Qed.
(* The end of the variable destroys all three. *)
Example C81_end : exec start (list3 ++ [ODrop 0]) = Ok (mkS [] [] 3).
Proof. reflexivity. Qed.

(* Cycles are never destroyed. *)
Theorem C81_cycle_refuted : exists l s, frun l s /\ (forall x, ~ In (Var x) (map fst (ptrs s))) /\ objs s <> [].
Proof.
  set (l := [ONew 0 1; OAssign (Field 0 0) (Var 0); ODrop 0]).
  exists l, (mkS [(Field 0 0, Some 0)] [(0, (1%Z, 1))] 1). split; [|split; [|discriminate]].
  - apply (frun_snoc [ONew 0 1; OAssign (Field 0 0) (Var 0)] (mkS [(Field 0 0, Some 0); (Var 0, Some 0)] [(0, (2%Z, 1))] 1)).
    + apply (frun_snoc [ONew 0 1] (mkS [(Var 0, Some 0); (Field 0 0, None)] [(0, (1%Z, 1))] 1)).
      * apply (frun_snoc [] start); [constructor| |reflexivity|unfold small; cbn; lia]. cbn. intros [].
      * cbn. split; [|auto]. split; [|auto]. apply (held_root _ (Var 0)); [reflexivity|]. left. reflexivity.
      * reflexivity.
      * unfold small. cbn. lia.
    + cbn. auto.
    + reflexivity.
    + unfold small. cbn. lia.
  - intros x [Q|[]]. discriminate.
Qed.
Print Assumptions C81_cycle_refuted.

(* Breaking such a cycle, through a reference to the object that the program
   kept: the assignment destroys the object it assigns in. *)
Theorem C81_self_owned_refuted :
  exec start [ONew 0 1; OAssign (Field 0 0) (Var 0); ODrop 0; OAssignNull (Field 0 0)] = Undef /\
  exec start [ONew 0 1; OAssign (Field 0 0) (Var 0); ODrop 0; ONull 1; OAssign (Field 0 0) (Var 1)] = Undef.
Proof. split; reflexivity. Qed.
Print Assumptions C81_self_owned_refuted.

(* n copies of one pointer. *)
Lemma copies : forall n a pt c,
  lookup (Var 0) pt = Some (Some 0) -> (forall i, a <= i -> lookup (Var i) pt = None) -> 0 < a -> wrap c = c ->
  exists pt1, exec (mkS pt [(0, (c, 0))] 1) (map (fun i => OCopy i (Var 0)) (seq a n)) =
    Ok (mkS pt1 [(0, (wrap (c + Z.of_nat n), 0))] 1) /\
    lookup (Var 0) pt1 = Some (Some 0) /\ length pt1 = n + length pt /\
    (0 < n -> exists pt2, pt1 = (Var (a + n - 1), Some 0) :: pt2 /\ lookup (Var 0) pt2 = Some (Some 0)).
Proof.
  induction n as [|n IH]; intros a pt c L0 LF P W.
  - exists pt. rewrite Z.add_0_r, W. repeat split; auto. lia.
  - cbn [seq map exec step ptrs]. rewrite LF, L0 by lia. cbn [put objs]. unfold olookup. cbn [find fst Nat.eqb snd bind].
    cbn [ptrs next oset map fst Nat.eqb].
    destruct (IH (S a) ((Var a, Some 0) :: pt) (wrap (c + 1))) as (pt1 & E & A & B & C).
    + unfold lookup. cbn [find fst]. destruct (place_dec (Var a) (Var 0)) as [Q|Q]; [injection Q; lia|exact L0].
    + intros i Q. unfold lookup. cbn [find fst]. destruct (place_dec (Var a) (Var i)) as [X|X]; [injection X; lia|apply LF; lia].
    + lia.
    + unfold wrap. apply Z.mod_mod. discriminate.
    + assert (WE : wrap (wrap (c + 1) + Z.of_nat n) = wrap (c + Z.of_nat (S n))).
      { unfold wrap. rewrite Zplus_mod_idemp_l. f_equal. lia. }
      rewrite WE in E. exists pt1. split; [exact E|]. split; [exact A|]. split; [cbn [length] in B; lia|]. intros _.
      destruct n as [|n].
      * cbn in E. injection E as <-. exists pt. split; [|exact L0]. do 3 f_equal. lia.
      * destruct C as (pt2 & C1 & C2); [lia|]. exists pt2. split; [|exact C2]. rewrite C1. do 3 f_equal. lia.
Qed.

(* The counter is an unsigned int: with 2^32 copies of a pointer, the end of one
   destroys the object the others point to. *)
Theorem C81_wrap_refuted : exists l s p o, exec start l = Ok s /\ In (p, Some o) (ptrs s) /\ ~ live s o.
Proof.
  destruct (Z_of_nat_complete 4294967296) as (n & HN'); [lia|]. assert (HN : Z.of_nat n = 4294967296%Z) by auto.
  assert (PN : 0 < n) by lia.
  destruct (copies n 1 [(Var 0, Some 0)] 1%Z) as (pt1 & E & L0 & LN & HD).
  - reflexivity.
  - intros i Q. unfold lookup. cbn [find fst]. destruct (place_dec (Var 0) (Var i)) as [X|X]; [injection X; lia|reflexivity].
  - lia.
  - reflexivity.
  - destruct (HD PN) as (pt2 & -> & L2). replace (1 + n - 1) with n in * by lia.
    assert (W : wrap (1 + Z.of_nat n) = 1%Z) by (rewrite HN; reflexivity). rewrite W in E.
    exists (ONew 0 0 :: map (fun i => OCopy i (Var 0)) (seq 1 n) ++ [ODrop n]).
    exists (mkS (rem (Var n) pt2) [] 1), (Var 0), 0. split; [|split].
    + cbn [exec step start]. unfold lookup at 1. cbn [ptrs start find bind next map seq app objs].
      assert (EA : forall l1 s l2, exec s (l1 ++ l2) = bind (exec s l1) (fun s1 => exec s1 l2)).
      { induction l1 as [|x l1 IH]; intros s l2; cbn [app exec]; [reflexivity|]. destruct (step s x); cbn [bind]; auto. }
      rewrite EA, E. cbn [bind exec step ptrs].
      assert (EL : lookup (Var n) ((Var n, Some 0) :: pt2) = Some (Some 0)).
      { unfold lookup. cbn [find fst]. destruct (place_dec (Var n) (Var n)); [reflexivity|congruence]. }
      rewrite EL. unfold drop, fuel_of. cbn [ptrs objs length]. replace (S (length pt2) + 1) with (S (S (length pt2))) by lia.
      cbn [drain ptrs objs]. rewrite EL. unfold olookup at 1. cbn [find fst Nat.eqb snd Z.sub].
      change (wrap (1 - 1)) with 0%Z. cbn [Z.eqb fields seq map app].
      assert (RM : rem (Var n) ((Var n, Some 0) :: pt2) = rem (Var n) pt2).
      { unfold rem. cbn [filter fst]. destruct (place_dec (Var n) (Var n)); [reflexivity|congruence]. }
      rewrite RM. cbn [drain]. destruct (length pt2); reflexivity.
    + cbn [ptrs]. apply in_rem. split; [apply lookup_in; exact L2|]. cbn. intros Q. injection Q. lia.
    + intros [].
Qed.
Print Assumptions C81_wrap_refuted.

(* Two pointers are equal if they point to the same object or are both null. *)
Theorem C81_equal : forall l s p q, frun l s -> named s p -> named s q ->
  exists b, equal s p q = Some b /\ (b = true <-> deref s p = deref s q).
Proof.
  intros l s p q R NP NQ. destruct (C81_deref _ _ _ R NP) as (v & EP & DP). destruct (C81_deref _ _ _ R NQ) as (w & EQ & DQ).
  unfold equal. rewrite EP, EQ, DP, DQ. exists (oeqb v w). split; [reflexivity|].
  destruct v as [a|], w as [b|]; cbn [oeqb]; try (split; discriminate); [|tauto].
  rewrite Nat.eqb_eq. split; [intros ->; reflexivity|congruence].
Qed.
Print Assumptions C81_equal.
