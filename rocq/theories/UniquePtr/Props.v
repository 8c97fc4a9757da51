(* C82: unique_ptr. *)

From Coq Require Import List Bool Arith ZArith Lia.
From Verif.CounterPtr Require Import Model Spec Proofs.
From Verif.UniquePtr Require Import Model Spec Proofs.
Import ListNotations.

Lemma ulive_find : forall s o, ulive s o <-> ufind o (uobjs s) <> None.
Proof.
  intros s o. unfold ulive, ufind. induction (uobjs s) as [|e l IH]; cbn [map find In]; [split; [tauto|congruence]|].
  destruct (Nat.eqb_spec (fst e) o); [split; [discriminate|tauto]|]. rewrite <- IH. tauto.
Qed.

(* Nothing undefined happens in a program that touches only pointers it can
   name, as long as move(p, q) is not used with q inside what p owns. *)
Theorem C82_defined_partial : forall l s o, urun l s -> ufine s o -> exists s1, ustep s o = UOk s1.
Proof.
  intros l s o R F. destruct (ustep_ok s o (ui_run _ _ R) F) as (s1 & E & _). eauto.
Qed.
Print Assumptions C82_defined_partial.

(* Every object that exists has exactly one owner, and no pointer dangles. *)
Theorem C82_unique : forall l s, urun l s ->
  (forall p o, In (p, Some o) (uptrs s) -> ulive s o) /\
  (forall o, ulive s o -> exists p, In (p, Some o) (uptrs s)) /\
  (forall o p q, In (p, Some o) (uptrs s) -> In (q, Some o) (uptrs s) -> p = q).
Proof.
  intros l s R. destruct (ui_run _ _ R) as [(sc & RL & H) U NT].
  assert (FD : forall o, ulive s o <-> olookup o (objs sc) <> None).
  { intros o. rewrite ulive_find, (r_find _ _ RL). destruct (olookup o (objs sc)); cbn; split; congruence. }
  rewrite (r_ptrs _ _ RL) in *. split; [|split].
  - intros p o I. apply FD. eapply i_tgt; eauto.
  - intros o L. apply FD in L. apply cnt_pos. apply live_pos; auto.
  - intros o p q I J. destruct (place_dec p q) as [|D]; [assumption|]. exfalso. specialize (U o).
    pose proof (cnt_rem _ _ _ o (i_nd _ _ _ H) (in_lookup _ _ _ (i_nd _ _ _ H) I)) as [C _].
    cbn [targets] in C. rewrite Nat.eqb_refl in C.
    assert (0 < cnt (rem p (ptrs sc)) o) by (apply cnt_pos; exists q; apply in_rem; cbn; auto). lia.
Qed.
Print Assumptions C82_unique.

Lemma nd_run : forall s, UI s -> NoDup (map fst (uptrs s)).
Proof. intros s [(sc & R & H) _ _]. rewrite (r_ptrs _ _ R). apply H. Qed.

(* All steps but UNew *)
Lemma step_after : forall s o, UI s -> ufine s o -> (forall p, o <> UMove p p) -> (forall x k, o <> UNew x k) ->
  exists s1, ustep s o = UOk s1 /\ UAfter s s1 (map fst (uwrites s o)) /\
    forall p v, In (p, v) (uwrites s o) -> lookup p (uptrs s1) = v.
Proof.
  intros s o H F NM NN. destruct o as [x|x k|x|p q|p|x p]; cbn [ufine] in F.
  - destruct (unull_ok s x H F) as (s1 & E & A & I). exists s1. split; [exact E|]. split; [exact A|].
    intros r v [Q|[]]. injection Q as <- <-. apply in_lookup; [apply nd_run, A|exact I].
  - destruct (NN x k eq_refl).
  - destruct (udropvar_ok s x H F) as (s1 & E & A & I). exists s1. split; [exact E|]. split; [exact A|].
    intros r v [Q|[]]. injection Q as <- <-. apply lookup_none. exact I.
  - destruct F as [NP NQ]. assert (D : p <> q) by (intros ->; eapply NM; eauto).
    destruct (umove_ok s p q H NP NQ D) as (s1 & v & E & L & A & I & J). exists s1. split; [exact E|]. cbn [uwrites]. rewrite L.
    split; [exact A|]. intros r w [Q|[Q|[]]]; injection Q as <- <-; apply in_lookup; try (apply nd_run, A); assumption.
  - destruct (umove_self s p H F) as (s1 & _ & A & I & E). exists s1. split; [exact E|]. split; [exact A|].
    intros r v [Q|[]]. injection Q as <- <-. apply in_lookup; [apply nd_run, A|exact I].
  - destruct F as [FR NP]. destruct (urelease_ok s x p H FR NP) as (s1 & v & E & L & A & I & J & _). exists s1. split; [exact E|].
    cbn [uwrites]. rewrite L.
    split; [exact A|]. intros r w [Q|[Q|[]]]; injection Q as <- <-; apply in_lookup; try (apply nd_run, A); assumption.
Qed.

(* A step gives the pointers it writes their new values, and leaves all others
   alone but those inside objects that it destroys or makes. *)
Theorem C82_effect : forall l s o s1, urun l s -> ufine s o -> ustep s o = UOk s1 -> (forall p, o <> UMove p p) ->
  (forall p v, In (p, v) (uwrites s o) -> lookup p (uptrs s1) = v) /\
  forall q, ~ In q (map fst (uwrites s o)) ->
    lookup q (uptrs s1) = lookup q (uptrs s) \/
    exists x f, q = Field x f /\ (ulive s x <-> ~ ulive s1 x) /\ lookup q (uptrs s1) = match o with UNew _ _ => Some None | _ => None end.
Proof.
  intros l s o s1 R F E NM. pose proof (ui_run _ _ R) as H.
  assert (CS : (forall x k, o <> UNew x k) \/ exists x k, o = UNew x k) by (destruct o; eauto; left; discriminate).
  destruct CS as [NN|(x & k & ->)].
  - destruct (step_after s o H F NM NN) as (s2 & E2 & A & W). rewrite E in E2. injection E2 as <-. split; [exact W|].
    intros q D. pose proof (ua_fld _ _ _ H A) as FL. destruct A as [H1 AV AO AB AN].
    assert (MN : match o with UNew _ _ => Some (@None nat) | _ => None end = None) by (destruct o; auto; destruct (NN x k eq_refl)).
    destruct (lookup q (uptrs s1)) as [w|] eqn:E1.
    + left. symmetry. apply in_lookup; [apply nd_run, H|]. apply AO; [|exact D]. apply lookup_in. exact E1.
    + destruct (lookup q (uptrs s)) as [w|] eqn:E0; [|auto]. right. apply lookup_in in E0.
      destruct q as [x|x f|].
      * pose proof (in_lookup _ _ _ (nd_run _ H1) (AV _ _ E0 D eq_refl)). congruence.
      * exists x, f. split; [reflexivity|]. split; [|auto]. rewrite !ulive_find.
        assert (LS : ufind x (uobjs s) <> None).
        { destruct H as [(sc & RL & HI) _ _]. rewrite (r_ptrs _ _ RL) in E0.
          destruct (i_fld1 _ _ _ HI x f (key_in _ _ _ E0)) as (c & k & Q & _). rewrite (r_find _ _ RL), Q. discriminate. }
        split; [|tauto]. intros _ L1. pose proof (FL x f w E0 D L1) as Q.
        pose proof (in_lookup _ _ _ (nd_run _ H1) Q). congruence.
      * destruct H as [_ _ NT]. destruct (NT (key_in _ _ _ E0)).
  - cbn [ufine] in F. destruct (unew_ok s x k H F) as (s2 & E2 & H1 & PT & OB & NX & FN).
    rewrite E in E2. injection E2 as <-. cbn [uwrites]. split.
    + intros p v [Q|[]]. injection Q as <- <-. apply in_lookup; [apply nd_run, H1|]. rewrite PT. left. reflexivity.
    + intros q D. destruct (lookup q (uptrs s1)) as [w|] eqn:E1.
      * apply lookup_in in E1. rewrite PT in E1. destruct E1 as [E1|E1]; [destruct D; left; cbn; congruence|].
        apply in_app_iff in E1. destruct E1 as [E1|E1].
        -- right. apply in_map_iff in E1. destruct E1 as (f & Q & _). injection Q as <- <-. exists (unext s), f.
           split; [reflexivity|]. split; [|reflexivity]. rewrite !ulive_find, OB, FN. unfold ufind at 1. cbn [find fst]. rewrite Nat.eqb_refl.
           split; [congruence|intros Q; destruct Q; discriminate].
        -- left. symmetry. apply in_lookup; [apply nd_run, H|exact E1].
      * left. destruct (lookup q (uptrs s)) as [w|] eqn:E0; [|reflexivity]. apply lookup_in in E0.
        assert (I : In (q, w) (uptrs s1)) by (rewrite PT; right; apply in_app_iff; auto).
        pose proof (in_lookup _ _ _ (nd_run _ H1) I). congruence.
Qed.
Print Assumptions C82_effect.

(* Only what the first pointer owned is destroyed: an object that one gets at
   without it stays; release destroys nothing. *)
Theorem C82_destroys : forall l s o s1, urun l s -> ufine s o -> ustep s o = UOk s1 -> (forall p, o <> UMove p p) ->
  match o with
  | UMove p _ | UAssignNull p => forall x, reach (Some p) (uptrs s) x -> ulive s1 x
  | UDrop v => forall x, reach (Some (Var v)) (uptrs s) x -> ulive s1 x
  | _ => forall x, ulive s x -> ulive s1 x
  end.
Proof.
  intros l s o s1 R F E NM. pose proof (ui_run _ _ R) as H.
  assert (R1 : urun (l ++ [o]) s1) by (econstructor; eauto). pose proof (C82_unique _ _ R1) as (LV & _ & _).
  assert (G : forall p, UAfter s s1 (map fst (uwrites s o)) -> (forall p v, In (p, v) (uwrites s o) -> lookup p (uptrs s1) = v) ->
            (forall q v, In (q, Some v) (uptrs s) -> In q (map fst (uwrites s o)) -> Some p <> Some q -> exists r, In (r, Some v) (uptrs s1)) ->
            forall x, reach (Some p) (uptrs s) x -> ulive s1 x).
  { intros p A W Q x RX. pose proof (ua_fld _ _ _ H A) as FL. destruct A as [H1 AV AO AB AN].
    induction RX as [r x RT D I|y f x RX IH D I].
    - destruct (in_dec place_dec r (map fst (uwrites s o))) as [J|J].
      + destruct (Q _ _ I J D) as (t & K). eapply LV; eauto.
      + eapply LV. apply AV; eauto.
    - destruct (in_dec place_dec (Field y f) (map fst (uwrites s o))) as [J|J].
      + destruct (Q _ _ I J D) as (t & K). eapply LV; eauto.
      + eapply LV. apply FL; eauto. apply ulive_find. exact IH. }
  destruct o as [x|x k|x|p q|p|x p]; cbn [ufine] in F.
  - intros y. cbn [ustep] in E. destruct (lookup (Var x) (uptrs s)); [discriminate|]. injection E as <-. auto.
  - intros y. cbn [ustep] in E. destruct (lookup (Var x) (uptrs s)); [discriminate|]. injection E as <-. unfold ulive. cbn. auto.
  - destruct (step_after s (UDrop x) H F NM ltac:(discriminate)) as (s2 & E2 & A & W). rewrite E in E2. injection E2 as <-.
    apply G; auto. cbn. intros q v _ [Q|[]] D. congruence.
  - destruct (step_after s (UMove p q) H F NM ltac:(discriminate)) as (s2 & E2 & A & W). rewrite E in E2. injection E2 as <-.
    apply G; auto. cbn [uwrites map fst In]. intros r v I [Q|[Q|[]]] D; [congruence|]. subst r. exists p. apply lookup_in.
    apply W. cbn [uwrites]. left. f_equal. apply in_lookup; [apply nd_run, H|exact I].
  - destruct (step_after s (UAssignNull p) H F NM ltac:(discriminate)) as (s2 & E2 & A & W). rewrite E in E2. injection E2 as <-.
    apply G; auto. cbn. intros q v _ [Q|[]] D. congruence.
  - intros y. destruct F as [FR NP]. destruct (urelease_ok s x p H FR NP) as (s2 & v & E2 & _ & _ & _ & _ & OB).
    rewrite E in E2. injection E2 as <-. unfold ulive. rewrite OB. auto.
Qed.
Print Assumptions C82_destroys.

(* A destroyed object does not come back, so it is destroyed once. *)
Theorem C82_once : forall l s o s1 x, urun l s -> ufine s o -> ustep s o = UOk s1 ->
  x < unext s -> ~ ulive s x -> x < unext s1 /\ ~ ulive s1 x.
Proof.
  intros l s o s1 x R F E L ND. pose proof (ui_run _ _ R) as H.
  assert (G : forall ws, UAfter s s1 ws -> x < unext s1 /\ ~ ulive s1 x).
  { intros ws [H1 AV AO AB AN]. split; [lia|]. rewrite ulive_find in *. destruct (ufind x (uobjs s1)) eqn:Q; [|congruence].
    apply AB in Q. rewrite Q in ND. intros _. apply ND. discriminate. }
  assert (CS : (exists p, o = UMove p p) \/ (exists y k, o = UNew y k) \/ ((forall p, o <> UMove p p) /\ forall y k, o <> UNew y k)).
  { destruct o as [y|y k|y|p q|p|y p]; eauto; try (right; right; split; discriminate).
    destruct (place_dec p q) as [->|]; [eauto|]. right. right. split; [|discriminate]. intros r Q. congruence. }
  destruct CS as [(p & ->)|[(y & k & ->)|[NM NN]]].
  - destruct F as [NP _]. destruct (umove_self s p H NP) as (s2 & E2 & A & _). rewrite E in E2. injection E2 as <-. eapply G; eauto.
  - cbn [ufine] in F. destruct (unew_ok s y k H F) as (s2 & E2 & _ & _ & OB & NX & _). rewrite E in E2. injection E2 as <-.
    split; [lia|]. unfold ulive in *. rewrite OB. cbn [map fst In]. intros [Q|Q]; [lia|auto].
  - destruct (step_after s o H F NM NN) as (s2 & E2 & A & _). rewrite E in E2. injection E2 as <-. eapply G; eauto.
Qed.
Print Assumptions C82_once.

(* With all variables gone, nothing is left unless objects own themselves. *)
Theorem C82_no_leak : forall l s, urun l s -> (forall x, ~ In (Var x) (map fst (uptrs s))) -> uacyclic s -> uobjs s = [] /\ uptrs s = [].
Proof.
  intros l s R NV (rank & AC). destruct (C82_unique _ _ R) as (_ & OW & _). pose proof (ui_run _ _ R) as [(sc & RL & H) _ NT].
  assert (FO : forall o f, In (Field o f) (map fst (uptrs s)) -> ulive s o).
  { intros o f K. rewrite (r_ptrs _ _ RL) in K. destruct (i_fld1 _ _ _ H o f K) as (c & k & Q & _).
    apply ulive_find. rewrite (r_find _ _ RL), Q. discriminate. }
  assert (NO : forall o, ~ ulive s o).
  { intros o LO.
    assert (UP : forall d, exists y, ulive s y /\ d <= rank y).
    { induction d as [|d (y & LY & RY)]; [exists o; split; [exact LO|lia]|].
      destruct (OW _ LY) as (p & P). destruct p as [x|z f|]; [destruct (NV x (key_in _ _ _ P))| |destruct (NT (key_in _ _ _ P))].
      exists z. pose proof (AC _ _ _ P). split; [|lia]. apply (FO z f). eapply key_in; eauto. }
    destruct (UP (S (list_max (map rank (map fst (uobjs s)))))) as (y & LY & RY).
    pose proof (proj1 (list_max_le (map rank (map fst (uobjs s))) _) (Nat.le_refl _)) as X. rewrite Forall_forall in X.
    specialize (X (rank y) (in_map rank _ _ LY)). lia. }
  split.
  - assert (CS : uobjs s = [] \/ exists e, In e (uobjs s)) by (destruct (uobjs s) as [|e t]; [auto|right; exists e; left; reflexivity]).
    destruct CS as [Q|(e & I)]; [exact Q|]. destruct (NO (fst e)). apply in_map. exact I.
  - assert (CS : uptrs s = [] \/ exists e, In e (uptrs s)) by (destruct (uptrs s) as [|e t]; [auto|right; exists e; left; reflexivity]).
    destruct CS as [Q|([p v] & I)]; [exact Q|]. apply key_in in I. destruct p as [x|o f|]; [destruct (NV x I)| |destruct (NT I)].
    destruct (NO o (FO _ _ I)).
Qed.
Print Assumptions C82_no_leak.

(* A list 0 -> 1 -> 2, built by moves; taking off the head with release and move. *)
Definition ulist3 : list uop :=
  [UNew 0 1; UNew 1 1; UNew 2 1; UMove (Field 1 0) (Var 2); UMove (Field 0 0) (Var 1); UDrop 1; UDrop 2].
Example C82_built : uexec ustart ulist3 =
  UOk (mkU [(Field 0 0, Some 1); (Field 1 0, Some 2); (Field 2 0, None); (Var 0, Some 0)] [(2, 1); (1, 1); (0, 1)] 3).
Proof. vm_compute. reflexivity. Qed.
Example C82_pop : uexec ustart (ulist3 ++ [URelease 5 (Field 0 0); UMove (Var 0) (Var 5); UDrop 5]) =
  UOk (mkU [(Var 0, Some 1); (Field 1 0, Some 2); (Field 2 0, None)] [(2, 1); (1, 1)] 3).
Proof. vm_compute. reflexivity. Qed.
Example C82_end : uexec ustart (ulist3 ++ [UDrop 0]) = UOk (mkU [] [] 3).
Proof. vm_compute. reflexivity. Qed.

(* move(p, p) destroys what p owns instead of leaving it alone. *)
Theorem C82_move_self_refuted : forall l s p v, urun l s -> unamed None s p -> lookup p (uptrs s) = Some (Some v) ->
  exists s1, ustep s (UMove p p) = UOk s1 /\ lookup p (uptrs s1) = Some None /\ ~ ulive s1 v.
Proof.
  intros l s p v R N E. pose proof (ui_run _ _ R) as H. destruct (umove_self s p H N) as (s1 & E1 & A & I & E2). exists s1. split; [exact E1|].
  pose proof (in_lookup _ _ _ (nd_run _ (ua_inv _ _ _ A)) I) as L. split; [exact L|]. intros LV.
  assert (R1 : urun (l ++ [UAssignNull p]) s1) by (econstructor; eauto). destruct (C82_unique _ _ R1) as (_ & OW & _).
  destruct (OW _ LV) as (q & Q). assert (D : q <> p).
  { intros ->. pose proof (in_lookup _ _ _ (nd_run _ (ua_inv _ _ _ A)) Q). congruence. }
  pose proof (ua_old _ _ _ A _ _ Q ltac:(intros [X|[]]; congruence)) as O. destruct (C82_unique _ _ R) as (_ & _ & U).
  apply D. eapply U; [exact O|]. apply lookup_in. exact E.
Qed.
Print Assumptions C82_move_self_refuted.

(* Taking off the head of a list by move(head, ( *head ).next) reads a destroyed
   object. *)
Theorem C82_move_tail_refuted :
  uexec ustart (ulist3 ++ [UMove (Var 0) (Field 0 0)]) = UUndef /\
  exists s, uexec ustart ulist3 = UOk s /\ unamed None s (Var 0) /\ unamed None s (Field 0 0).
Proof.
  split; [vm_compute; reflexivity|]. eexists. split; [vm_compute; reflexivity|]. split; [cbn; tauto|].
  split; [|cbn; auto]. apply (reach_root None _ (Var 0)); [reflexivity|discriminate|]. cbn. tauto.
Qed.
Print Assumptions C82_move_tail_refuted.

(* A pointer moved into its own object: it is never destroyed. *)
Theorem C82_own_itself_refuted : exists l s, urun l s /\ (forall x, ~ In (Var x) (map fst (uptrs s))) /\ uobjs s <> [].
Proof.
  exists [UNew 0 1; UMove (Field 0 0) (Var 0); UDrop 0], (mkU [(Field 0 0, Some 0)] [(0, 1)] 1).
  split; [|split; [|discriminate]].
  - apply (urun_snoc [UNew 0 1; UMove (Field 0 0) (Var 0)] (mkU [(Var 0, None); (Field 0 0, Some 0)] [(0, 1)] 1)).
    + apply (urun_snoc [UNew 0 1] (mkU [(Var 0, Some 0); (Field 0 0, None)] [(0, 1)] 1)).
      * apply (urun_snoc [] ustart); [constructor| |reflexivity]. cbn. intros [].
      * cbn. split; [|auto]. split; [|auto]. apply (reach_root _ _ (Var 0)); [reflexivity|discriminate|]. left. reflexivity.
      * vm_compute. reflexivity.
    + cbn. auto.
    + vm_compute. reflexivity.
  - intros x [Q|[]]. discriminate.
Qed.
Print Assumptions C82_own_itself_refuted.
