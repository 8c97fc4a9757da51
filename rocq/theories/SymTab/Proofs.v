From Coq Require Import List Bool Arith Lia.
From Verif.SymTab Require Import Model Spec.
Import ListNotations.
(** Laziness *)
Inductive rel : symtab -> list tabs -> Prop :=
| rel0 t n : rel (ST t n 0 None) (repeat t (S n))
| relS p q rest t n : rel p (q :: rest) -> scope p = length rest -> rep p < scope p -> rel (ST t (scope p + n) (scope p) (Some p)) (repeat t (S n) ++ rest).
Lemma rel_hd s stk : rel s stk -> exists rest, stk = tables s :: rest /\ scope s = length rest /\ rep s <= scope s.
Proof.
  destruct 1 as [t n|p q rest t n H E L].
  - exists (repeat t n). cbn [repeat tables scope rep]. rewrite repeat_length. repeat split. lia.
  - exists (repeat t n ++ rest). cbn [repeat app tables scope rep]. rewrite app_length, repeat_length. repeat split; lia.
Qed.
Lemma rel_enter s stk : rel s stk -> rel (enter s) (tables s :: stk).
Proof.
  destruct 1 as [t n|p q rest t n H E L]; unfold enter; cbn [tables scope rep prev].
  - apply (rel0 t (S n)).
  - rewrite <- Nat.add_succ_r. apply (relS p q rest t (S n)); auto.
Qed.
Lemma rel_shrink s t rest : rel s (t :: rest) -> rep s < scope s -> rel (ST (tables s) (pred (scope s)) (rep s) (prev s)) rest.
Proof.
  intros H L. inversion H as [t0 n E1 [E2 E3]|p q r0 t0 n Hp Ep Lp E1 [E2 E3]]; subst s; cbn [tables scope rep prev repeat app] in *; subst t rest.
  - destruct n; [lia|]. apply (rel0 t0 n).
  - destruct n; [lia|]. rewrite Nat.add_succ_r. cbn [pred]. exact (relS p q r0 t0 n Hp Ep Lp).
Qed.
Lemma rel_leave s stk : rel s stk -> match stk with _ :: (_ :: _) as r => exists s', leave s = Some s' /\ rel s' (tl stk) | _ => leave s = None end.
Proof.
  intros H. destruct (rel_hd _ _ H) as [rest [-> [Es Lr]]]. unfold leave. destruct (Nat.eqb_spec (rep s) (scope s)) as [Er|Nr].
  - remember (tables s :: rest) as stk eqn:Estk in H; destruct H as [t n|p q r0 t n Hp Ep Lp]; cbn [tables scope rep prev repeat app] in *; injection Estk as Estk.
    + assert (n = 0) by lia. clear Es. subst n. cbn [repeat] in Estk. subst rest. reflexivity.
    + assert (n = 0) by lia. clear Es. subst n. cbn [repeat app] in *. subst rest. destruct r0 as [|u r0]; [cbn in Ep; lia|]. cbn [tl]. eexists. split; [reflexivity|]. eapply rel_shrink; eauto.
  - destruct rest as [|u rest]; [cbn in Es; lia|]. cbn [tl]. eexists. split; [reflexivity|]. eapply rel_shrink; eauto. lia.
Qed.
Lemma rel_upd s t rest t' : rel s (t :: rest) -> let s' := lazy_init s in rel (ST t' (scope s') (rep s') (prev s')) (t' :: rest).
Proof.
  intros H. destruct (rel_hd _ _ H) as [rest' [E [Es Lr]]]. injection E as -> <-. unfold lazy_init. destruct (Nat.eqb_spec (rep s) (scope s)) as [Er|Nr]; cbv zeta.
  - remember (tables s :: rest) as stk eqn:Estk in H; destruct H as [t n|p q r0 t n Hp Ep Lp]; cbn [tables scope rep prev repeat app] in *; injection Estk as Estk.
    + assert (n = 0) by lia. clear Es. subst n. cbn [repeat app] in *. subst rest. apply (rel0 t' 0).
    + assert (n = 0) by lia. clear Es. subst n. cbn [repeat app] in *. subst rest. exact (relS p q r0 t' 0 Hp Ep Lp).
  - cbn [scope rep prev]. pose proof (relS s (tables s) rest t' 0 H Es) as G. rewrite Nat.add_0_r in G. apply G. lia.
Qed.
Lemma rel_step ign compat o s stk : rel s stk -> match sstep ign compat o stk with Some stk' => exists s', step ign compat o s = Some s' /\ rel s' stk' | None => step ign compat o s = None end.
Proof.
  intros H. destruct (rel_hd _ _ H) as [rest [-> [Es _]]]. destruct o; cbn [sstep step].
  - eexists. split; [reflexivity|]. now apply rel_enter.
  - pose proof (rel_leave _ _ H) as L. destruct rest; exact L.
  - rewrite Es. destruct (change ign compat (AddId d del) (tables s) (length rest)); [eauto|reflexivity|]. eexists. split; [reflexivity|]. eapply rel_upd; eauto.
  - rewrite Es. destruct (change ign compat (WithId d w) (tables s) (length rest)); [eauto|reflexivity|]. eexists. split; [reflexivity|]. eapply rel_upd; eauto.
  - rewrite Es. destruct (change ign compat (AddAgg k a) (tables s) (length rest)); [eauto|reflexivity|]. eexists. split; [reflexivity|]. eapply rel_upd; eauto.
Qed.
Lemma rel_run ign compat l : forall s stk, rel s stk -> match srun ign compat l stk with Some stk' => exists s', run ign compat l s = Some s' /\ rel s' stk' | None => run ign compat l s = None end.
Proof.
  induction l as [|o l IH]; intros s stk H; cbn [srun run]; [eauto|]. pose proof (rel_step ign compat o s stk H) as G. destruct (sstep ign compat o stk) as [stk'|]; [|now rewrite G].
  destruct G as [s' [-> G]]. now apply IH.
Qed.
Definition tabs0 : tabs := T (fun _ => []) (fun _ _ => None).
Lemma rel_empty : rel empty [tabs0].
Proof. apply (rel0 tabs0 0). Qed.
Lemma reach ign compat l s : run ign compat l empty = Some s -> exists stk, srun ign compat l [tabs0] = Some stk /\ rel s stk.
Proof. intros H. pose proof (rel_run ign compat l _ _ rel_empty) as G. destruct (srun ign compat l [tabs0]) as [stk|]; [|congruence]. destruct G as [s' [E G]]. rewrite H in E. injection E as <-. eauto. Qed.
Lemma run_app ign compat a : forall b s, run ign compat (a ++ b) s = match run ign compat a s with Some s' => run ign compat b s' | None => None end.
Proof. induction a as [|o a IH]; intros b s; [reflexivity|]. cbn [app run]. destruct (step ign compat o s); auto. Qed.
Lemma srun_app ign compat a : forall b s, srun ign compat (a ++ b) s = match srun ign compat a s with Some s' => srun ign compat b s' | None => None end.
Proof. induction a as [|o a IH]; intros b s; [reflexivity|]. cbn [app srun]. destruct (sstep ign compat o s); auto. Qed.
(** a sequence that leaves only the scopes it entered does not touch the outer tables *)
Lemma balanced_stack ign compat l : forall n inner stk stk', length inner = n -> stk <> [] -> balanced n l -> forall t, srun ign compat l (t :: inner ++ stk) = Some stk' -> exists t', stk' = t' :: stk.
Proof.
  induction l as [|o l IH]; intros n inner stk stk' Hn Hs B t R; cbn [balanced srun] in *.
  - subst n. destruct inner; [|discriminate]. injection R as <-. eauto.
  - destruct o; cbn [sstep] in R.
    + apply (IH (S n) (t :: inner) stk stk' ltac:(cbn; congruence) Hs B t). exact R.
    + destruct n; [contradiction|]. destruct inner as [|u inner]; [discriminate|]. cbn [app] in R. apply (IH n inner stk stk' ltac:(cbn in Hn; congruence) Hs B u). exact R.
    + destruct (change ign compat (AddId d del) t (length (inner ++ stk))); [|discriminate|]; eapply (IH n inner); eauto.
    + destruct (change ign compat (WithId d w) t (length (inner ++ stk))); [|discriminate|]; eapply (IH n inner); eauto.
    + destruct (change ign compat (AddAgg k a) t (length (inner ++ stk))); [|discriminate|]; eapply (IH n inner); eauto.
Qed.
Lemma restore ign compat l s stk s' : rel s stk -> balanced 0 l -> run ign compat (Enter :: l ++ [Leave]) s = Some s' -> rel s' stk.
Proof.
  intros H B R. pose proof (rel_run ign compat (Enter :: l ++ [Leave]) s stk H) as G. rewrite R in G.
  destruct (srun ign compat (Enter :: l ++ [Leave]) stk) as [stk'|] eqn:E; [|discriminate]. destruct G as [s2 [E2 G]]. injection E2 as <-.
  destruct (rel_hd _ _ H) as [rest [-> _]]. cbn [srun sstep] in E. rewrite srun_app in E. destruct (srun ign compat l (tables s :: tables s :: rest)) as [stk2|] eqn:E1; [|discriminate].
  destruct (balanced_stack ign compat l 0 [] (tables s :: rest) stk2 eq_refl ltac:(discriminate) B (tables s) E1) as [t' ->]. cbn [srun sstep] in E. injection E as <-. exact G.
Qed.
Lemma rel_same ign compat l s1 s2 stk : rel s1 stk -> rel s2 stk -> option_map tables (run ign compat l s1) = option_map tables (run ign compat l s2).
Proof.
  intros H1 H2. pose proof (rel_run ign compat l _ _ H1) as G1. pose proof (rel_run ign compat l _ _ H2) as G2. destruct (srun ign compat l stk) as [stk'|]; [|now rewrite G1, G2].
  destruct G1 as [t1 [-> R1]], G2 as [t2 [-> R2]]. cbn [option_map]. f_equal. destruct (rel_hd _ _ R1) as [r1 [-> _]]. destruct (rel_hd _ _ R2) as [r2 [E _]]. congruence.
Qed.
(** atScope *)
Lemma skipn_repeat {A} (t : A) rest n : forall k, k <= n -> exists x, skipn k (repeat t (S n) ++ rest) = t :: x.
Proof. induction n as [|n IH]; intros k L; destruct k; try lia; cbn [repeat app skipn]; eauto. apply (IH k). lia. Qed.
Lemma skipn_past {A} (t : A) rest n : forall k, n < k -> skipn k (repeat t (S n) ++ rest) = skipn (k - S n) rest.
Proof. intros k L. rewrite skipn_app, repeat_length. rewrite skipn_all2 by (rewrite repeat_length; lia). reflexivity. Qed.
Lemma at_scope_rel s stk : rel s stk -> forall target, target <= scope s -> exists x, skipn (scope s - target) stk = tables (at_scope target s) :: x.
Proof.
  induction 1 as [t n|p q rest t n H IH E L]; intros target Ht; cbn [at_scope scope] in *.
  - cbn [Nat.leb tables]. destruct (skipn_repeat t [] n (n - target)) as [x Ex]; [lia|]. rewrite app_nil_r in Ex. eauto.
  - destruct (Nat.leb_spec (scope p) target) as [G|G].
    + cbn [tables]. apply (skipn_repeat t rest n). lia.
    + destruct (IH target ltac:(lia)) as [x Ex]. rewrite skipn_past by lia. replace (scope p - target) with (S (scope p - target - 1)) in Ex by lia. cbn [skipn] in Ex.
      replace (scope p + n - target - S n) with (scope p - target - 1) by lia. eauto.
Qed.
Lemma leave_many ign compat k : forall stk t x, skipn k stk = t :: x -> srun ign compat (repeat Leave k) stk = Some (t :: x).
Proof.
  induction k as [|k IH]; intros stk t x E; cbn [repeat srun] in *; [now rewrite <- E|]. destruct stk as [|u stk]; [discriminate|]. cbn [skipn] in E. destruct stk as [|v stk]; [destruct k; discriminate|]. cbn [sstep]. now apply IH.
Qed.
Lemma global_tables ign compat s stk target : rel s stk -> target <= scope s -> exists s', run ign compat (repeat Leave (scope s - target)) s = Some s' /\ tables s' = tables (at_scope target s) /\ scope s' = target.
Proof.
  intros H L. destruct (at_scope_rel _ _ H target L) as [x E]. pose proof (rel_run ign compat (repeat Leave (scope s - target)) _ _ H) as G. rewrite (leave_many _ _ _ _ _ _ E) in G. destruct G as [s' [R G]]. exists s'. split; [exact R|].
  destruct (rel_hd _ _ G) as [rest [E2 [Es _]]]. injection E2 as -> <-. split; [reflexivity|]. rewrite Es. destruct (rel_hd _ _ H) as [r0 [-> [E0 _]]].
  apply (f_equal (@length _)) in E. rewrite skipn_length in E. cbn [length] in E. lia.
Qed.
(** Scopes of entries *)
Lemma mfind_in m t x : mfind m t = Some x -> In (m, x) t.
Proof. induction t as [|[k v] t IH]; cbn [mfind]; [discriminate|]. destruct (Nat.eqb_spec k m) as [->|N]; [intros [= ->]; now left|right; auto]. Qed.
Lemma in_mset e m x t : In e (mset m x t) -> e = (m, x) \/ In e t.
Proof. induction t as [|[k v] t IH]; cbn [mset In]; [intuition|]. destruct (Nat.eqb_spec k m) as [->|N]; cbn [In]; intuition. Qed.
Lemma mfind_mset m x t k : mfind k (mset m x t) = if k =? m then Some x else mfind k t.
Proof.
  induction t as [|[j v] t IH]; cbn [mset mfind]; [rewrite Nat.eqb_sym; reflexivity|]. destruct (Nat.eqb_spec j m) as [->|N]; cbn [mfind].
  - rewrite (Nat.eqb_sym k m). destruct (m =? k); reflexivity.
  - rewrite IH. destruct (Nat.eqb_spec j k) as [->|Nk]; [|reflexivity]. destruct (Nat.eqb_spec k m); [congruence|reflexivity].
Qed.
Definition bounded (sc : nat) (t : tabs) : Prop := (forall k e, In e (ids t k) -> dscope (snd e) <= sc) /\ (forall k n a s, aggs t k n = Some (a, s) -> s <= sc).
Lemma in_merase e m t : In e (merase m t) -> In e t.
Proof. unfold merase. intros H. now apply filter_In in H. Qed.
Lemma scan_copy_deleted ex l : forall rm dl al rm' dl' al', scan_copy ex l rm dl al = Some (rm', dl', al') -> forall e, In e dl' -> In e dl \/ In e l.
Proof.
  induction l as [|[m x] l IH]; intros rm dl al rm' dl' al' H e I; cbn [scan_copy] in H; [injection H as -> -> ->; auto|].
  destruct (negb (for_otype x ex)); [destruct (IH _ _ _ _ _ _ H e I); cbn [In]; auto|]. destruct (user (who x)).
  - destruct (d_copy (who x)); [discriminate|]. destruct (IH _ _ _ _ _ _ H e I); cbn [In]; auto.
  - destruct (d_copy (who x)); [destruct (IH _ _ _ _ _ _ H e I); cbn [In]; auto|]. destruct (negb al); [|destruct (IH _ _ _ _ _ _ H e I); cbn [In]; auto].
    destruct (IH _ _ _ _ _ _ H e I) as [J|J]; cbn [In]; auto. apply in_app_iff in J as [J|[J|[]]]; auto.
Qed.
Lemma scan_user_deleted ex l : forall dl dl', scan_user ex l dl = Some dl' -> forall e, In e dl' -> In e dl \/ In e l.
Proof.
  induction l as [|[m x] l IH]; intros dl dl' H e I; cbn [scan_user] in H; [injection H as ->; auto|].
  destruct (negb (for_otype x ex)); [destruct (IH _ _ H e I); cbn [In]; auto|]. destruct (user (who x)); [discriminate|]. destruct (d_intr (who x)); [destruct (IH _ _ H e I); cbn [In]; auto|].
  destruct (d_copy (who x)); [destruct (IH _ _ H e I); cbn [In]; auto|]. destruct (IH _ _ H e I) as [J|J]; cbn [In]; auto. apply in_app_iff in J as [J|[J|[]]]; auto.
Qed.
Lemma in_delete_all w dl : forall t e, In e (delete_all w dl t) -> In e t \/ exists e', In e' dl /\ e = (fst e', with_deleter (snd e') w).
Proof.
  unfold delete_all. induction dl as [|d dl IH]; intros t e I; [auto|]. cbn [fold_left] in I. destruct (IH _ _ I) as [J|[e' [A B]]].
  - apply in_mset in J as [->|J]; [|auto]. right. exists d. split; [now left|reflexivity].
  - right. exists e'. split; [now right|exact B].
Qed.
Lemma in_erase_all rm : forall t e, In e (fold_left (fun t m => merase m t) rm t) -> In e t.
Proof. induction rm as [|m rm IH]; intros t e I; [exact I|]. cbn [fold_left] in I. eapply in_merase. eapply IH. exact I. Qed.
Lemma remove_scopes x t x' t' : remove_special x t = Some (x', t') -> dscope x' = dscope x /\ forall e, In e t' -> exists e', In e' t /\ dscope (snd e) = dscope (snd e').
Proof.
  unfold remove_special. destruct (d_spec (who x)) as [[[? ?] ex]|]; [|intros [= <- <-]; split; [reflexivity|eauto]].
  destruct (negb (d_fn (who x))); [intros [= <- <-]; split; [reflexivity|eauto]|]. destruct (user (who x) && d_copy (who x)).
  - destruct (scan_copy ex t [] [] false) as [[[rm dl] al]|] eqn:E; [|intros [= <- <-]; split; [reflexivity|eauto]]. intros H. injection H as <- <-. split; [reflexivity|]. intros e I. destruct (negb al).
    + apply in_delete_all in I as [I|[e' [A ->]]]; [exists e; split; [now apply in_erase_all in I|reflexivity]|]. destruct (scan_copy_deleted _ _ _ _ _ _ _ _ E e' A) as [[]|J]. exists e'. auto.
    + exists e. split; [now apply in_erase_all in I|reflexivity].
  - destruct (user (who x)).
    + destruct (scan_user ex t []) as [dl|] eqn:E; [|intros [= <- <-]; split; [reflexivity|eauto]]. intros H. injection H as <- <-. split; [reflexivity|]. intros e I.
      apply in_delete_all in I as [I|[e' [A ->]]]; [eauto|]. destruct (scan_user_deleted _ _ _ _ E e' A) as [[]|J]. exists e'. auto.
    + destruct (negb (d_intr (who x))); [|intros [= <- <-]; split; [reflexivity|eauto]]. destruct (scan_gen ex (d_copy (who x)) t) as [[w|]|]; [|discriminate|]; intros [= <- <-]; (split; [reflexivity|eauto]).
Qed.
Lemma bounded_ids sc t k mt : bounded sc t -> (forall e, In e mt -> dscope (snd e) <= sc) -> bounded sc (set_ids t k mt).
Proof. intros [A B] H. split; [|exact B]. intros k' e. cbn [set_ids ids]. destruct (key_eqb k' k); eauto. Qed.
Lemma change_bounded ign compat o t sc t' : bounded sc t -> change ign compat o t sc = Upd t' -> bounded sc t'.
Proof.
  intros Hb. assert (Ha : forall d w del, add_id ign compat d w del t sc = Upd t' -> bounded sc t').
  { intros d w del. unfold add_id. destruct (d_name d =? 0); [discriminate|]. destruct (negb ign && has_cdecl (d_load d) t (d_name d) (d_mangle d) sc); [discriminate|].
    match goal with |- match _ with _ => _ end = _ -> _ => idtac end.
    assert (Add : forall r, match (match key_of d with KSp _ _ => remove_special (Data d del sc) (ids t (key_of d)) | KId _ => Some (Data d del sc, ids t (key_of d)) end) with None => Upd t | Some (x, mt') => Upd (set_ids t (key_of d) (mset (d_mangle d) x mt')) end = Upd r -> bounded sc r).
    { intros r. destruct (match key_of d with KSp _ _ => remove_special (Data d del sc) (ids t (key_of d)) | KId _ => Some (Data d del sc, ids t (key_of d)) end) as [[x mt']|] eqn:E; intros [= <-]; [|exact Hb].
      apply bounded_ids; [exact Hb|]. assert (F : dscope x = sc /\ forall e, In e mt' -> dscope (snd e) <= sc).
      { destruct (key_of d); [injection E as <- <-; split; [reflexivity|]; intros e I; eapply (proj1 Hb); eauto|]. destruct (remove_scopes _ _ _ _ E) as [A B]. split; [exact A|]. intros e I. destruct (B e I) as [e' [J ->]]. eapply (proj1 Hb); eauto. }
      intros e I. apply in_mset in I as [->|I]; [cbn [snd]; lia|]. now apply F. }
    destruct (mfind (d_mangle d) (ids t (key_of d))) as [e|] eqn:Ef; [|apply Add]. destruct (dscope e =? sc) eqn:Es; [|apply Add].
    destruct (id_conflicts ign compat e d (match w with Some _ => true | None => false end) del) as [[|]|]; [|apply Add|discriminate]. destruct w as [w|]; [|discriminate]. intros [= <-]. apply bounded_ids; [exact Hb|].
    intros e' I. apply in_mset in I as [->|I]; [cbn [snd with_deleter dscope]; apply Nat.eqb_eq in Es; lia|]. eapply (proj1 Hb); eauto. }
  destruct o; cbn [change]; try discriminate; try apply Ha.
  unfold add_agg. assert (Set_ : forall r, Upd (set_agg t k (a_name a) (a, sc)) = Upd r -> bounded sc r).
  { intros r [= <-]. destruct Hb as [A B]. split; [exact A|]. intros k' n' a' s'. cbn [set_agg aggs]. destruct (akind_eqb k' k && (n' =? a_name a)); [intros [= <- <-]; lia|eauto]. }
  destruct (aggs t k (a_name a)) as [[e s]|]; [|apply Set_]. destruct (s =? sc); [|apply Set_]. destruct (agg_conflicts ign compat k e a) as [[|]|]; [discriminate|apply Set_|discriminate].
Qed.
Fixpoint all_bounded (stk : list tabs) : Prop := match stk with [] => True | t :: r => bounded (length r) t /\ all_bounded r end.
Lemma sstep_bounded ign compat o stk stk' : all_bounded stk -> sstep ign compat o stk = Some stk' -> all_bounded stk'.
Proof.
  destruct stk as [|t r]; [destruct o; discriminate|]. intros [A B]. destruct o; cbn [sstep].
  - intros [= <-]. split; [|split; auto]. destruct A as [A1 A2]. split; [intros k e I; specialize (A1 k e I); cbn [length]; lia|intros k n a s E; specialize (A2 k n a s E); cbn [length]; lia].
  - destruct r; [discriminate|]. intros [= <-]. exact B.
  - destruct (change ign compat (AddId d del) t (length r)) eqn:E; [|discriminate|]; intros [= <-]; (split; [|exact B]); [exact A|eapply change_bounded; eauto].
  - destruct (change ign compat (WithId d w) t (length r)) eqn:E; [|discriminate|]; intros [= <-]; (split; [|exact B]); [exact A|eapply change_bounded; eauto].
  - destruct (change ign compat (AddAgg k a) t (length r)) eqn:E; [|discriminate|]; intros [= <-]; (split; [|exact B]); [exact A|eapply change_bounded; eauto].
Qed.
Lemma srun_bounded ign compat l : forall stk stk', all_bounded stk -> srun ign compat l stk = Some stk' -> all_bounded stk'.
Proof.
  induction l as [|o l IH]; intros stk stk' A; cbn [srun]; [now intros [= <-]|]. destruct (sstep ign compat o stk) as [s|] eqn:E; [|discriminate]. apply IH. eapply sstep_bounded; eauto.
Qed.
Lemma reach_bounded ign compat l s : run ign compat l empty = Some s -> bounded (scope s) (tables s).
Proof.
  intros H. destruct (reach _ _ _ _ H) as [stk [E R]]. destruct (rel_hd _ _ R) as [rest [-> [Es _]]]. assert (B : all_bounded [tabs0]) by (cbn; repeat split; [contradiction|discriminate]). destruct (srun_bounded _ _ _ _ _ B E) as [G _]. now rewrite Es.
Qed.
(** A declaration in a new scope *)
Lemma shadow_agg ign compat s k a : bounded (scope s) (tables s) -> exists s', run ign compat [Enter; AddAgg k a] s = Some s' /\ forall k' n, lookup_agg s' k' n = if akind_eqb k' k && (n =? a_name a) then Some a else lookup_agg s k' n.
Proof.
  intros [_ B]. cbn [run step enter change]. unfold add_agg. cbn [tables scope enter].
  assert (E : match aggs (tables s) k (a_name a) with Some (e, s0) => if s0 =? S (scope s) then match agg_conflicts ign compat k e a with Some true => Same | Some false => Upd (set_agg (tables s) k (a_name a) (a, S (scope s))) | None => Bad end else Upd (set_agg (tables s) k (a_name a) (a, S (scope s))) | None => Upd (set_agg (tables s) k (a_name a) (a, S (scope s))) end = Upd (set_agg (tables s) k (a_name a) (a, S (scope s)))).
  { destruct (aggs (tables s) k (a_name a)) as [[e s0]|] eqn:E; [|reflexivity]. specialize (B _ _ _ _ E). destruct (Nat.eqb_spec s0 (S (scope s))); [lia|reflexivity]. }
  rewrite E. eexists. split; [reflexivity|]. intros k' n. unfold lookup_agg. cbn [tables set_agg aggs]. destruct (akind_eqb k' k && (n =? a_name a)); reflexivity.
Qed.
Lemma key_eqb_refl k : key_eqb k k = true.
Proof. destruct k; cbn; rewrite !Nat.eqb_refl; reflexivity. Qed.
Lemma shadow_id ign compat s d del : bounded (scope s) (tables s) -> d_name d <> 0 -> d_spec d = None -> exists s', run ign compat [Enter; AddId d del] s = Some s' /\ scope s' = S (scope s) /\
  forall k m, mfind m (ids (tables s') k) = if key_eqb k (KId (d_name d)) && (m =? d_mangle d) then Some (Data d del (S (scope s))) else mfind m (ids (tables s) k).
Proof.
  intros [B _] N Sp. cbn [run step enter change]. unfold add_id, key_of. rewrite Sp. cbn [tables scope enter]. destruct (Nat.eqb_spec (d_name d) 0); [contradiction|].
  assert (H : has_cdecl (d_load d) (tables s) (d_name d) (d_mangle d) (S (scope s)) = false).
  { unfold has_cdecl. apply not_true_is_false. intros H. apply existsb_exists in H as [e [I H]]. specialize (B _ _ I). apply andb_true_iff in H as [H _]. apply andb_true_iff in H as [H _]. apply Nat.eqb_eq in H. lia. }
  rewrite H, andb_false_r. destruct (mfind (d_mangle d) (ids (tables s) (KId (d_name d)))) as [e|] eqn:E.
  - pose proof (B _ _ (mfind_in _ _ _ E)) as L. cbn [snd] in L. destruct (Nat.eqb_spec (dscope e) (S (scope s))); [lia|]. eexists. split; [reflexivity|].
    split; [unfold lazy_init; cbn [rep scope enter tables prev]; destruct (rep s =? S (scope s)); reflexivity|]. intros k m. cbn [tables set_ids ids]. destruct (key_eqb k (KId (d_name d))) eqn:Ek; [|reflexivity]. cbn [andb]. rewrite mfind_mset. destruct k as [j|]; [|discriminate]. cbn in Ek. apply Nat.eqb_eq in Ek. subst j. reflexivity.
  - eexists. split; [reflexivity|].
    split; [unfold lazy_init; cbn [rep scope enter tables prev]; destruct (rep s =? S (scope s)); reflexivity|]. intros k m. cbn [tables set_ids ids]. destruct (key_eqb k (KId (d_name d))) eqn:Ek; [|reflexivity]. cbn [andb]. rewrite mfind_mset. destruct k as [j|]; [|discriminate]. cbn in Ek. apply Nat.eqb_eq in Ek. subst j. reflexivity.
Qed.
(** Identifiers with C linkage *)
Definition c_unique (t : tabs) : Prop := forall n e1 e2, In e1 (ids t (KId n)) -> In e2 (ids t (KId n)) -> dscope (snd e1) = dscope (snd e2) -> d_load (who (snd e1)) = false -> d_load (who (snd e2)) = false -> fst e1 = fst e2.
Lemma change_unique compat o t sc t' : c_unique t -> change false compat o t sc = Upd t' -> c_unique t'.
Proof.
  intros Hb. assert (Ha : forall d w del, add_id false compat d w del t sc = Upd t' -> c_unique t').
  { intros d w del. unfold add_id. destruct (d_name d =? 0); [discriminate|]. cbn [negb andb]. destruct (has_cdecl (d_load d) t (d_name d) (d_mangle d) sc) eqn:Hc; [discriminate|].
    assert (Set_ : forall x, d_spec d = None -> (d_load (who x) = false -> (d_load d = false /\ dscope x = sc) \/ In (d_mangle d, x) (ids t (KId (d_name d))) \/ exists y, In (d_mangle d, y) (ids t (KId (d_name d))) /\ who x = who y /\ dscope x = dscope y) -> c_unique (set_ids t (KId (d_name d)) (mset (d_mangle d) x (ids t (KId (d_name d)))))).
    { intros x _ Hx n e1 e2. cbn [set_ids ids key_eqb]. destruct (Nat.eqb_spec n (d_name d)) as [->|N]; [|apply Hb].
      assert (One : forall e, In e (ids t (KId (d_name d))) -> dscope (snd e) = dscope x -> d_load (who (snd e)) = false -> d_load (who x) = false -> fst e = d_mangle d).
      { intros e I Es Le Lx. destruct (Hx Lx) as [[Ld Sx]|[J|[y [J [Wy Sy]]]]].
        - unfold has_cdecl in Hc. rewrite Ld in Hc. destruct (Nat.eq_dec (fst e) (d_mangle d)) as [|Nm]; [assumption|]. assert (X : existsb (fun e => (dscope (snd e) =? sc) && negb (d_load (who (snd e))) && negb (fst e =? d_mangle d)) (ids t (KId (d_name d))) = true); [|congruence].
          apply existsb_exists. exists e. split; [exact I|]. rewrite Es, Sx, Nat.eqb_refl, Le. cbn [andb negb]. apply negb_true_iff. now apply Nat.eqb_neq.
        - exact (Hb _ _ _ I J Es Le Lx).
        - apply (Hb _ _ _ I J); cbn [snd]; congruence. }
      intros I1 I2 Es L1 L2. apply in_mset in I1 as [->|I1]; apply in_mset in I2 as [->|I2]; cbn [fst snd] in *; auto; [symmetry; apply One; auto|eapply Hb; eauto]. }
    assert (Sp : forall mt k o, c_unique (set_ids t (KSp k o) mt)) by (intros mt k' o' n e1 e2; cbn [set_ids ids key_eqb]; apply Hb).
    unfold key_of. destruct (d_spec d) as [[[k ok] ex]|] eqn:Ed.
    - intros E. assert (X : (exists mt, t' = set_ids t (KSp k ok) mt) \/ t' = t); [|destruct X as [[mt ->]| ->]; auto]. revert E.
      assert (Y : forall r, match remove_special (Data d del sc) (ids t (KSp k ok)) with Some (x, mt') => Upd (set_ids t (KSp k ok) (mset (d_mangle d) x mt')) | None => Upd t end = Upd r -> (exists mt, r = set_ids t (KSp k ok) mt) \/ r = t) by (intros r; destruct (remove_special (Data d del sc) (ids t (KSp k ok))) as [[? ?]|]; intros [= <-]; eauto).
      destruct (mfind (d_mangle d) (ids t (KSp k ok))) as [e|]; [|apply Y]. destruct (dscope e =? sc); [|apply Y]. destruct (id_conflicts false compat e d (match w with Some _ => true | None => false end) del) as [[|]|]; [|apply Y|discriminate]. destruct w; [intros [= <-]; eauto|discriminate].
    - assert (New : c_unique (set_ids t (KId (d_name d)) (mset (d_mangle d) (Data d del sc) (ids t (KId (d_name d)))))) by (apply Set_; auto).
      destruct (mfind (d_mangle d) (ids t (KId (d_name d)))) as [e|] eqn:Ef; [|intros [= <-]; exact New]. destruct (dscope e =? sc); [|intros [= <-]; exact New].
      destruct (id_conflicts false compat e d (match w with Some _ => true | None => false end) del) as [[|]|]; [|intros [= <-]; exact New|discriminate]. destruct w as [w|]; [|discriminate]. intros [= <-]. apply Set_; auto. intros _. right. right. exists e. split; [now apply mfind_in|auto]. }
  destruct o; cbn [change]; try discriminate; try apply Ha.
  unfold add_agg. assert (Set_ : forall r, Upd (set_agg t k (a_name a) (a, sc)) = Upd r -> c_unique r) by (intros r [= <-]; exact Hb).
  destruct (aggs t k (a_name a)) as [[e s]|]; [|apply Set_]. destruct (s =? sc); [|apply Set_]. destruct (agg_conflicts false compat k e a) as [[|]|]; [discriminate|apply Set_|discriminate].
Qed.
Lemma srun_unique compat l : forall stk stk', Forall c_unique stk -> srun false compat l stk = Some stk' -> Forall c_unique stk'.
Proof.
  induction l as [|o l IH]; intros stk stk' A; cbn [srun]; [now intros [= <-]|]. destruct (sstep false compat o stk) as [s|] eqn:E; [|discriminate]. apply IH. destruct stk as [|t r]; [destruct o; discriminate|]. inversion A; subst. destruct o; cbn [sstep] in E.
  - injection E as <-. constructor; auto.
  - destruct r; [discriminate|]. injection E as <-. auto.
  - destruct (change false compat (AddId d del) t (length r)) eqn:C; [|discriminate|]; injection E as <-; auto. constructor; auto. eapply change_unique; eauto.
  - destruct (change false compat (WithId d w) t (length r)) eqn:C; [|discriminate|]; injection E as <-; auto. constructor; auto. eapply change_unique; eauto.
  - destruct (change false compat (AddAgg k a) t (length r)) eqn:C; [|discriminate|]; injection E as <-; auto. constructor; auto. eapply change_unique; eauto.
Qed.
Lemma reach_unique compat l s : run false compat l empty = Some s -> c_unique (tables s).
Proof.
  intros H. destruct (reach _ _ _ _ H) as [stk [E R]]. destruct (rel_hd _ _ R) as [rest [-> _]]. assert (B : Forall c_unique [tabs0]) by (constructor; [intros n e1 e2 []|constructor]). pose proof (srun_unique _ _ _ _ B E) as G. now inversion G.
Qed.
