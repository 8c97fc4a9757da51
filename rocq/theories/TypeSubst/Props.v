From Coq Require Import List Bool Arith Lia.
From Verif.TypeSubst Require Import Model Spec Proofs.
Import ListNotations.
(** lookup returns the end of the chain of variable-to-variable bindings. *)
Theorem C57_lookup_end : forall m k t, chain_end m k t -> exists f0, forall f, f0 <= f -> lookup f m k = Some (Some t).
Proof.
  intros m k t H. assert (E : exists r, find m k = Some r) by (inversion H; eauto). destruct E as [r E]. destruct (follow_end m k k t H r E) as [f F]; [intros q B; eapply no_return; eauto|].
  exists f. intros g G. eapply lookup_mono; [|exact G]. unfold lookup. rewrite E, F. auto.
Qed.
Print Assumptions C57_lookup_end.
(** When the chain comes back to the variable itself, lookup returns that variable. *)
Theorem C57_lookup_cycle : forall m k q, chain_back m k k q -> exists f0, forall f, f0 <= f -> lookup f m k = Some (Some (Var q k)).
Proof.
  intros m k q H. assert (E : exists r, find m k = Some r) by (inversion H; eauto). destruct E as [r E]. destruct (follow_back m k k q H r E) as [f F]. exists f. intros g G. eapply lookup_mono; [|exact G]. unfold lookup. rewrite E, F. auto.
Qed.
Print Assumptions C57_lookup_cycle.
(** lookup returns nothing else, and nothing exactly for a variable without binding. *)
Theorem C57_lookup_only : forall f m k x, lookup f m k = Some x ->
  match x with
  | None => find m k = None
  | Some t => chain_end m k t \/ exists q, t = Var q k /\ chain_back m k k q
  end.
Proof.
  intros f m k x H. unfold lookup in H. destruct (find m k) as [r|] eqn:E; [|injection H as <-; auto]. destruct (follow f m k r) as [t|] eqn:F; [|discriminate]. injection H as <-. eapply follow_only; eauto.
Qed.
Print Assumptions C57_lookup_only.
(** In a substitution without cycles and without variables bound to themselves lookup terminates for every variable. *)
Theorem C57_lookup_terminates_partial : forall m k, acyclic m -> (forall v q, find m v <> Some (Var q v)) -> exists f x, lookup f m k = Some x.
Proof.
  intros m k (rank & R) NS. assert (T : forall N k, rank k < N -> find m k <> None -> exists t, chain_end m k t).
  { induction N; intros j J F; [lia|]. destruct (find m j) as [r|] eqn:E; [|congruence]. destruct r as [q a|q c l|q vs l]; try (eexists; apply E_type; [eauto|discriminate]). destruct (find m a) as [s|] eqn:A; [|eexists; eapply E_open; eauto].
    assert (B : forall x y, find m x = Some y -> bound m x y) by (intros x y X; split; auto; intros p ->; eapply NS; eauto).
    destruct (IHN a) as [t C]; [|congruence|exists t; eapply E_step; eauto]. assert (rank a < rank j) by (eapply R; eauto; constructor). lia. }
  destruct (find m k) as [r|] eqn:E; [|exists 0, None; unfold lookup; rewrite E; auto]. destruct (T (S (rank k)) k) as [t C]; [lia|congruence|]. destruct (C57_lookup_end m k t C) as [f F]. exists f, (Some t). apply F. auto.
Qed.
Print Assumptions C57_lookup_terminates_partial.
(** It does not terminate for a variable that leads to a cycle it is not part of, such as a variable bound to itself. *)
Theorem C57_lookup_terminates_refuted : exists m k, forall f, lookup f m k = None.
Proof.
  exists [(0, Var 0 1); (1, Var 0 1)], 0. intros f. assert (H : follow f [(0, Var 0 1); (1, Var 0 1)] 0 (Var 0 1) = None) by (induction f; auto). unfold lookup. cbn [find Nat.eqb]. rewrite H. auto.
Qed.
Print Assumptions C57_lookup_terminates_refuted.
(** Applying a substitution without cycles terminates; nothing substitutable remains and the result is equal to the type under the bindings. *)
Theorem C57_apply : forall m t, acyclic m -> exists f t' n, (forall g, f <= g -> apply g m t = Some (t', n)) /\ solved m t' /\ same m t t'.
Proof.
  intros m t A. destruct (visit_total m false [] t A) as (f & [t' n] & V). exists f, t', n. split; [|split; [eapply visit_solved|eapply visit_same]; eauto]. intros g G. eapply visit_mono; eauto.
Qed.
Print Assumptions C57_apply.
(** Types equal under the bindings get the same result: the result is the only solved type equal to the given one. *)
Theorem C57_apply_unique : forall m t u f t' n, apply f m t = Some (t', n) -> solved m u -> same m t u -> t' = u.
Proof.
  intros m t u f t' n H S E. apply (res_fun m t); [exists f, n; auto|]. apply (same_res m t u E). apply solved_res. auto.
Qed.
Print Assumptions C57_apply_unique.
(** Applying it again changes nothing and reports no substitution. *)
Theorem C57_apply_idempotent : forall m t f t' n, apply f m t = Some (t', n) -> exists g, apply g m t' = Some (t', 0).
Proof. intros m t f t' n H. apply visit_id. eapply visit_solved; eauto. Qed.
Print Assumptions C57_apply_idempotent.
(** With a cycle of two variables, which lookup handles, apply does not terminate. *)
Theorem C57_apply_terminates_refuted : exists m t, (exists f x, lookup f m 0 = Some x) /\ (exists f x, lookup f m 1 = Some x) /\ forall f, apply f m t = None.
Proof.
  set (m := [(0, Var 0 1); (1, Var 0 0)]). exists m, (Var 0 0). split; [exists 2, (Some (Var 0 0)); auto|]. split; [exists 2, (Some (Var 0 1)); auto|].
  assert (H : forall f, visit f m false [] (Var 0 0) = None /\ visit f m false [] (Var 0 1) = None).
  { induction f as [|f [A B]]; auto. split; [change (match visit f m false [] (Var 0 1) with Some (t, n) => Some (t, S n) | None => None end = None); rewrite B|change (match visit f m false [] (Var 0 0) with Some (t, n) => Some (t, S n) | None => None end = None); rewrite A]; auto. }
  intros f. apply H.
Qed.
Print Assumptions C57_apply_terminates_refuted.
(** lookup and apply agree on a variable up to qualifiers only: lookup drops the qualifiers of the intermediate bindings. *)
Theorem C57_lookup_apply_refuted : exists m k t u, acyclic m /\ lookup 5 m k = Some (Some t) /\ apply 5 m (Var 0 k) = Some (u, 2) /\ t <> u.
Proof.
  exists [(0, Var 1 1); (1, Con 0 7 [])], 0, (Con 0 7 []), (Con 1 7 []). split; [|split; [reflexivity|split; [reflexivity|discriminate]]].
  exists (fun v => 1 - v). intros v r w s [B _] O [W _]. cbn [find] in *. destruct v as [|[|v]]; cbn [Nat.eqb] in B; try discriminate; injection B as <-; inversion O; subst; cbn; try lia. contradiction.
Qed.
Print Assumptions C57_lookup_apply_refuted.
(** applyFree leaves the variables bound by a function type alone. *)
Theorem C57_free_bound : forall m q vs l, (forall t v, In t l -> occurs v t -> In v vs) -> exists f, apply_free f m (Fun q vs l) = Some (Fun q vs l, 0).
Proof.
  intros m q vs l H. assert (V : forall t bv, (forall v, occurs v t -> In v bv) -> exists f, visit f m true bv t = Some (t, 0)).
  { assert (L : forall bv l, Forall (fun t => exists f, visit f m true bv t = Some (t, 0)) l -> exists f, walk (visit f m true bv) l = Some (l, 0)).
    { induction 1 as [|t l0 (f & A) _ (g & B)]; [exists 0; auto|]. exists (Nat.max f g). cbn [walk]. rewrite (visit_mono f (Nat.max f g) _ _ _ _ _ A) by lia. rewrite (walk_visit_mono g (Nat.max f g) _ _ _ _ _ B) by lia. auto. }
    induction t as [p k|p c a IH|p ws a IH] using ty_ind'; intros bv B.
    - exists 1. cbn [visit]. replace (mem k bv) with true; auto. symmetry. apply existsb_exists. exists k. split; [apply B; constructor|apply Nat.eqb_refl].
    - destruct (L bv a) as (f & W); [|exists (S f); cbn [visit]; rewrite W; auto]. rewrite Forall_forall in *. intros t T. apply IH; auto. intros v O. apply B. econstructor; eauto.
    - destruct (L (ws ++ bv) a) as (f & W); [|exists (S f); cbn [visit]; rewrite W; auto]. rewrite Forall_forall in *. intros t T. apply IH; auto. intros v O. apply in_or_app. right. apply B. econstructor; eauto. }
  assert (W : exists f, walk (visit f m true (vs ++ [])) l = Some (l, 0)).
  { induction l as [|t l IH]; [exists 0; auto|]. destruct (V t (vs ++ [])) as [f A]; [intros v O; apply in_or_app; left; eapply H; eauto; left; auto|]. destruct IH as [g B]; [intros; eapply H; eauto; right; eauto|].
    exists (Nat.max f g). cbn [walk]. rewrite (visit_mono f (Nat.max f g) _ _ _ _ _ A) by lia. rewrite (walk_visit_mono g (Nat.max f g) _ _ _ _ _ B) by lia. auto. }
  destruct W as [f W]. exists (S f). unfold apply_free. cbn [visit]. rewrite W. auto.
Qed.
Print Assumptions C57_free_bound.
(** It does not avoid capture: a free variable of a binding can end up bound by the function type it is put into. *)
Theorem C57_free_capture_refuted : exists m t u, acyclic m /\ free_in 0 t /\ find m 0 = Some (Con 0 9 [Var 0 1]) /\ apply_free 5 m t = Some (u, 1) /\ ~ free_in 1 u.
Proof.
  exists [(0, Con 0 9 [Var 0 1])], (Fun 0 [1] [Var 0 0]), (Fun 0 [1] [Con 0 9 [Var 0 1]]). split; [|split; [|split; [reflexivity|split; [reflexivity|]]]].
  - exists (fun v => 1 - v). intros v r w s [B _] O [W _]. cbn [find] in *. destruct v as [|v]; cbn [Nat.eqb] in B; [|discriminate]. injection B as <-. inversion O; subst. match goal with I : In _ [_] |- _ => destruct I as [<-|[]] end. match goal with I : occurs _ (Var _ _) |- _ => inversion I; subst end. discriminate.
  - eapply F_fun with (t := Var 0 0); [intros [K|[]]; discriminate|left; auto|constructor].
  - intros F. inversion F; subst. match goal with I : ~ In _ _ |- _ => apply I end. left. auto.
Qed.
Print Assumptions C57_free_capture_refuted.
(** normalize of an acyclic substitution to types without binders terminates; every binding becomes the result of applying the substitution to it. *)
Theorem C57_normalize_partial : forall m, NoDup (map fst m) -> acyclic m -> Forall (fun e => mono (snd e)) m ->
  exists rounds f m', normalize rounds f m = Some m' /\ map fst m' = map fst m /\ forall k r, find m k = Some r -> exists r', find m' k = Some r' /\ solved m r' /\ same m r r'.
Proof.
  intros m N A M. assert (F : from m m) by (constructor; auto; intros k r K; exists r; split; auto; split; auto; apply S_refl).
  destruct (pass_total m (length m) 0 m N F eq_refl) as (f & M' & c & P & F' & L & S); [intros; lia|].
  assert (N' : NoDup (map fst M')) by (rewrite (F_keys _ _ F'); auto).
  assert (S' : forall k r, find M' k = Some r -> solved M' r).
  { intros k r K v s O B. destruct (from_bound _ _ F' _ _ B) as (s0 & B0 & _). eapply S; eauto. }
  destruct (pass_done M' (F_mono _ _ F') N' S' (length M') 0) as (g & Q).
  exists 2, (Nat.max f g), M'. split; [|split; [apply F'|]].
  - cbn [normalize]. rewrite (pass_mono f (Nat.max f g) _ _ _ _ P) by lia. rewrite (pass_mono g (Nat.max f g) _ _ _ _ Q) by lia. destruct (Nat.eqb c 0); auto.
  - intros k r K. destruct (F_same _ _ F' _ _ K) as (r' & X & Y & _). exists r'. eauto.
Qed.
Print Assumptions C57_normalize_partial.
(** add and remove behave as assignments of a map. *)
Theorem C57_add : forall m k t j, find (add m k t) j = (if Nat.eqb k j then Some t else find m j) /\ find (remove m k) j = (if Nat.eqb k j then None else find m j).
Proof.
  intros m k t j. split; [apply find_add|]. unfold remove. induction m as [|[a r] m IH]; cbn [filter fst find]; [destruct (Nat.eqb k j); auto|]. destruct (Nat.eqb a k) eqn:E; cbn [negb find].
  - rewrite IH. apply Nat.eqb_eq in E. subst a. destruct (Nat.eqb k j); auto.
  - rewrite IH. destruct (Nat.eqb a j) eqn:D; auto. apply Nat.eqb_eq in D. subst a. rewrite Nat.eqb_sym, E. auto.
Qed.
Print Assumptions C57_add.
(** The bindings of the other substitution win. *)
Theorem C57_add_all : forall m o j, NoDup (map fst o) -> find (add_all m o) j = match find o j with Some t => Some t | None => find m j end.
Proof.
  intros m o. revert m. induction o as [|[k t] o IH]; intros m j N; auto. inversion N; subst. unfold add_all in *. cbn [fold_left fst snd find]. rewrite IH by auto. rewrite find_add. destruct (Nat.eqb k j) eqn:E; auto. apply Nat.eqb_eq in E. subst j. replace (find o k) with (@None ty); auto. symmetry. apply find_keys. auto.
Qed.
Print Assumptions C57_add_all.
(** a -> const b, b -> pair c int, c -> d *)
Definition ex : map_ := [(0, Var 1 1); (1, Con 0 3 [Var 0 2; Con 0 4 []]); (2, Var 0 5)].
Example C57_ex_lookup : lookup 5 ex 0 = Some (Some (Con 0 3 [Var 0 2; Con 0 4 []])) /\ lookup 5 ex 2 = Some (Some (Var 0 5)) /\ lookup 5 ex 5 = Some None.
Proof. repeat split. Qed.
Example C57_ex_apply : apply 9 ex (Fun 0 [2] [Var 2 0; Var 0 9]) = Some (Fun 0 [2] [Con 3 3 [Var 0 5; Con 0 4 []]; Var 0 9], 3).
Proof. reflexivity. Qed.
Example C57_ex_free : apply_free 9 ex (Fun 0 [2] [Var 0 2; Var 0 9; Fun 0 [] [Var 0 1]; Var 0 2]) = Some (Fun 0 [2] [Var 0 2; Var 0 9; Fun 0 [] [Con 0 3 [Var 0 2; Con 0 4 []]]; Var 0 2], 1).
Proof. reflexivity. Qed.
Example C57_ex_normalize : normalize 2 9 ex = Some [(0, Con 1 3 [Var 0 5; Con 0 4 []]); (1, Con 0 3 [Var 0 5; Con 0 4 []]); (2, Var 0 5)] /\ normalize 1 9 ex = None.
Proof. split; reflexivity. Qed.
