(** C91: the mutex statement acquires its locks in one order and releases them *)
From Coq Require Import List Bool Arith ZArith Lia Sorted Permutation.
From Verif.MutexStmt Require Import Model Spec Proofs.
Import ListNotations.
Open Scope Z_scope.
(** Every argument is acquired once, in the order of the addresses, and released once after the body, in the opposite order *)
Theorem C91_statement : forall args st st', proper (args, st, st') ->
  exists ls, Permutation (map (address st) args) ls /\ ascending ls /\ stmt args st st' None = Some (block ls).
Proof. exact proper_stmt. Qed.
Print Assumptions C91_statement.
Definition mem : store := fun x => nth x [30; 10; 20] 0.
Example C91_statement_ex : stmt [Lk 1 0; Lk 2 1; Lk 1 2] mem mem None = Some [Lock 2 10; Lock 1 20; Lock 1 30; Body; Unlock 1 30; Unlock 1 20; Unlock 2 10].
Proof. vm_compute; reflexivity. Qed.
(** Threads that execute such statements one after the other do not block each other for ever *)
Theorem C91_no_deadlock : forall p, Forall (Forall proper) p -> forall n w, moves n (system p) w -> finished w \/ exists x, move w x.
Proof.
  intros p F n w M. destruct (system_threads p F) as (pss & A & E). rewrite E in M.
  destruct (inv_moves n _ w M) as (hs & I); [eexists; apply inv_start; auto|]. eapply progress; eauto.
Qed.
Print Assumptions C91_no_deadlock.
(** they come to an end, and then every lock is free *)
Theorem C91_ends : forall p, Forall (Forall proper) p -> forall n w, moves n (system p) w ->
  (n <= length (concat (snd (system p))))%nat /\ (finished w -> n = length (concat (snd (system p))) /\ forall a, fst w a = None).
Proof.
  intros p F n w M. pose proof (moves_len _ _ _ M) as L. split; [lia|]. intros D.
  assert (Z0 : length (concat (snd w)) = 0%nat). { clear -D. unfold finished in D. induction D as [|e l H D IH]; auto. subst e; auto. } split; [lia|].
  destruct (system_threads p F) as (pss & A & E). rewrite E in M. destruct (inv_moves n _ w M) as (hs & I); [eexists; apply inv_start; auto|].
  intros a. destruct (fst w a) as [t|] eqn:O; auto. apply (i_own _ _ I) in O. destruct O as (h & H & J).
  assert (Lt : (t < length (snd w))%nat) by (rewrite <- (i_len _ _ I); eapply nth_lt; eauto). destruct (nth_some (snd w) t Lt) as (e & Et).
  assert (e = []). { unfold finished in D. rewrite Forall_forall in D. apply D. eapply nth_error_In; eauto. } subst e.
  pose proof (at_view _ _ (i_at _ _ I t _ h Et H)) as V. inversion V; subst; destruct J.
Qed.
Print Assumptions C91_ends.
(** and two of them are not inside statements with a lock in common *)
Theorem C91_exclusion : forall p, Forall (Forall proper) p -> forall n w, moves n (system p) w ->
  forall t u ls ms a, inside w t ls -> inside w u ms -> In a (map snd ls) -> In a (map snd ms) -> t = u.
Proof.
  intros p F n w M t u ls ms a T U J K. destruct (system_threads p F) as (pss & A & E). rewrite E in M. destruct (inv_moves n _ w M) as (hs & I); [eexists; apply inv_start; auto|].
  assert (G : forall v l, inside w v l -> In a (map snd l) -> fst w a = Some v).
  { intros v l V Ja. pose proof V as (rest & Q). assert (Lt : (v < length hs)%nat) by (rewrite (i_len _ _ I); eapply nth_lt; eauto). destruct (nth_some hs v Lt) as (h & H).
    apply (i_own _ _ I). exists h; split; auto. apply in_map_iff in Ja. destruct Ja as (q & <- & Ja). apply in_map. eapply inside_has; eauto. }
  pose proof (G t ls T J). pose proof (G u ms U K). congruence.
Qed.
Print Assumptions C91_exclusion.
(** two threads that name the same locks in different order *)
Definition two : list (list statement) := [[([Lk 1 0; Lk 1 1], mem, mem)]; [([Lk 1 1; Lk 1 0], mem, mem)]].
Example C91_system_ex : Forall (Forall proper) two /\ snd (system two) = [[Lock 1 10; Lock 1 30; Body; Unlock 1 30; Unlock 1 10]; [Lock 1 10; Lock 1 30; Body; Unlock 1 30; Unlock 1 10]] /\
  exists w, moves 2 (system two) w /\ inside w 0 [(1%nat, 10); (1%nat, 30)] /\ ~ finished w.
Proof.
  split; [|split; [vm_compute; reflexivity|]].
  - assert (P : forall i j, mem i <> mem j -> proper ([Lk 1 i; Lk 1 j], mem, mem)).
    { intros i j N. split; [discriminate|split; [repeat constructor|split; [|auto]]]. cbn [map address snd]. constructor; [intros [K|[]]; congruence|constructor; [intros []|constructor]]. }
    constructor; [|constructor; [|constructor]]; (constructor; [|constructor]); apply P; discriminate.
  - exists (upd (upd free 10 (Some 0%nat)) 30 (Some 0%nat), [[Body; Unlock 1 30; Unlock 1 10]; [Lock 1 10; Lock 1 30; Body; Unlock 1 30; Unlock 1 10]]).
    split; [|split; [exists []; reflexivity|intros H; inversion H; discriminate]].
    apply moves_S with (x := (upd free 10 (Some 0%nat), [[Lock 1 30; Body; Unlock 1 30; Unlock 1 10]; [Lock 1 10; Lock 1 30; Body; Unlock 1 30; Unlock 1 10]])).
    + apply moves_S with (x := system two); [constructor|]. exact (m_lock free (snd (system two)) 0 1 10 _ eq_refl eq_refl).
    + exact (m_lock (upd free 10 (Some 0%nat)) [[Lock 1 30; Body; Unlock 1 30; Unlock 1 10]; [Lock 1 10; Lock 1 30; Body; Unlock 1 30; Unlock 1 10]] 0 1 30 _ eq_refl eq_refl).
Qed.
(** statements one inside the other are each in order, and can still block each other: not a claim of the statement *)
Example C91_nested_ex : let l := [[Lock 1 30; Body; Unlock 1 30; Body; Unlock 1 10]; [Lock 1 10; Body; Unlock 1 10; Body; Unlock 1 30]] in
  forall x, ~ move (upd (upd free 10 (Some 0%nat)) 30 (Some 1%nat), l) x.
Proof.
  intros l x M. inversion M as [o l0 t ty a r E F|o l0 t ty a r E F|o l0 t ty a r E|o l0 t r E]; subst; subst l; destruct t as [|[|[|t]]]; cbn [nth_error] in E; try discriminate E; injection E as E1 E2 E3; subst; discriminate F.
Qed.
(** Tuples of locks as arguments: whether an argument is a tuple is asked of the first one. After a tuple comes the tuple again; a tuple that comes later is not taken apart *)
Theorem C91_tuples_refuted : ~ (forall args st, args <> [] -> NoDup (map (fun a => snd (address st a)) (meant args)) ->
    exists ls, Permutation (map (address st) (meant args)) ls /\ stmt args st st None = Some (block ls)) /\
  (forall t x u y v z st, st x < st y -> stmt [Tup [Lk t x; Lk u y]; Lk v z] st st None =
     Some [Lock t (st x); Lock t (st x); Lock u (st y); Lock u (st y); Body; Unlock u (st y); Unlock u (st y); Unlock t (st x); Unlock t (st x)]) /\
  (forall t x l r st st' bad, stmt (Lk t x :: Tup l :: r) st st' bad = None).
Proof.
  split; [|split].
  - intros H. specialize (H [Lk 1 0; Tup [Lk 1 1]] mem). destruct H as (ls & _ & H); [discriminate| |discriminate H]. repeat constructor; cbn; try tauto. intros [H|[]]; discriminate H.
  - intros t x u y v z st L. unfold stmt, flat. cbn [map concat nth_error flatten app locks]. 
    assert (E : monitors st [(t, x); (u, y); (t, x); (u, y)] = Some [st x; st x; st y; st y]).
    { unfold monitors. destruct (Verif.SmallSort.Proofs.small_sort_correct (map (fun p : nat * nat => st (snd p)) [(t, x); (u, y); (t, x); (u, y)])) as (o & S1 & S2 & S3).
      rewrite map_length in S1. rewrite S1. f_equal. cbn [map snd] in S2. apply Sorted_StronglySorted in S3; [|intros ? ? ?; lia].
      assert (P : Permutation [st x; st x; st y; st y] o). { apply Permutation_trans with (2 := S2). apply perm_skip. apply Permutation_trans with (l' := [st y; st x; st y]); [apply perm_swap|auto]. }
      assert (Q : StronglySorted Z.le [st x; st x; st y; st y]) by (repeat constructor; lia). clear -P Q S3. revert o P Q S3. generalize [st x; st x; st y; st y] as m.
      induction m as [|c m IH]; intros [|d o] P Q S3; [reflexivity|apply Permutation_nil in P; discriminate|apply Permutation_sym, Permutation_nil in P; discriminate|].
      inversion Q as [|? ? Q1 Q2]; inversion S3 as [|? ? S4 S5]; subst. rewrite Forall_forall in *.
      assert (c = d). { assert (In d (c :: m)) as [->|J] by (eapply Permutation_in; [apply Permutation_sym, P|left; auto]); auto. assert (In c (d :: o)) as [->|K] by (eapply Permutation_in; [apply P|left; auto]); auto. specialize (Q2 _ J). specialize (S5 _ K). lia. }
      subst d. f_equal. apply IH; auto. eapply Permutation_cons_inv; eauto. }
    rewrite E. unfold tries, discrim. cbn [find snd fst]. rewrite !Z.eqb_refl. replace (st y =? st x) with false by (symmetry; apply Z.eqb_neq; lia). cbn [fst app]. rewrite ?Z.eqb_refl. reflexivity.
  - intros. reflexivity.
Qed.
Print Assumptions C91_tuples_refuted.
Example C91_tuples_ex : stmt [Tup [Lk 1 1; Lk 1 2]; Lk 1 0] mem mem None = Some [Lock 1 10; Lock 1 10; Lock 1 20; Lock 1 20; Body; Unlock 1 20; Unlock 1 20; Unlock 1 10; Unlock 1 10].
Proof. vm_compute; reflexivity. Qed.
(** an argument given twice is acquired twice: a lock that its owner cannot acquire again blocks the thread for ever *)
Theorem C91_twice_refuted : forall t x st st', exists e, stmt [Lk t x; Lk t x] st st' None = Some e /\ forall n w, moves n (free, [e]) w -> ~ finished w.
Proof.
  intros t x st st'. exists (Lock t (st x) :: Lock t (st x) :: Body :: discrim st' [(t, x); (t, x)] Unlock (st x) ++ discrim st' [(t, x); (t, x)] Unlock (st x)). split.
  - unfold stmt, flat; cbn [map concat nth_error app locks]. unfold monitors. cbn [length map snd]. unfold Verif.SmallSort.Model.small_sort.
    assert (E : Verif.SmallSort.Model.small_sort 2 [st x; st x] = Some [st x; st x]).
    { destruct (Verif.SmallSort.Proofs.small_sort_correct [st x; st x]) as (o & S1 & S2 & _). cbn [length] in S1. rewrite S1. f_equal. apply Permutation_length_2_inv in S2. destruct S2; auto. }
    unfold Verif.SmallSort.Model.small_sort in E. cbn [length] in E. rewrite E. unfold tries, discrim at 1 2. cbn [find snd]. rewrite Z.eqb_refl. cbn [fst app]. reflexivity.
  - intros n w M.
    assert (G : w = (free, [Lock t (st x) :: Lock t (st x) :: Body :: discrim st' [(t, x); (t, x)] Unlock (st x) ++ discrim st' [(t, x); (t, x)] Unlock (st x)]) \/
      w = (upd free (st x) (Some 0%nat), [Lock t (st x) :: Body :: discrim st' [(t, x); (t, x)] Unlock (st x) ++ discrim st' [(t, x); (t, x)] Unlock (st x)])).
    { remember (free, [Lock t (st x) :: Lock t (st x) :: Body :: discrim st' [(t, x); (t, x)] Unlock (st x) ++ discrim st' [(t, x); (t, x)] Unlock (st x)]) as w0 eqn:W.
      induction M as [|n w y z M IH N]; auto. specialize (IH W).
      destruct IH as [IH|IH]; subst; inversion N as [o l0 i ty a r E F|o l0 i ty a r E F|o l0 i ty a r E|o l0 i r E]; subst; destruct i as [|[|i]]; cbn [nth_error] in E; try discriminate E; injection E as E1 E2 E3; subst.
      - right; reflexivity.
      - unfold upd in F. rewrite Z.eqb_refl in F. discriminate F. }
    intros D. destruct G as [-> | ->]; inversion D; discriminate.
Qed.
Print Assumptions C91_twice_refuted.
(** The arguments are looked up again to release the locks. When the body has moved the pointer in mutex( *p ), nothing is released (or the wrong operation is called) *)
Theorem C91_moved_refuted : forall t x st st', st' x <> st x -> stmt [Lk t x] st st' None = Some [Lock t (st x); Body] /\ forall n w, moves n (free, [[Lock t (st x); Body]]) w -> finished w -> fst w (st x) <> None.
Proof.
  intros t x st st' N. split.
  - unfold stmt, flat; cbn [map concat nth_error app locks]. unfold monitors; cbn [length map snd].
    destruct (Verif.SmallSort.Proofs.small_sort_correct [st x]) as (o & S1 & S2 & _). cbn [length] in S1. rewrite S1. apply Permutation_length_1_inv in S2. subst o.
    unfold tries, discrim. cbn [find snd]. rewrite Z.eqb_refl. replace (st x =? st' x) with false by (symmetry; apply Z.eqb_neq; auto). reflexivity.
  - intros n w M D.
    assert (G : w = (free, [[Lock t (st x); Body]]) \/ fst w (st x) = Some 0%nat /\ (snd w = [[Body]] \/ snd w = [[]])).
    { clear D. remember (free, [[Lock t (st x); Body]]) as w0 eqn:W. induction M as [|n w y z M IH K]; auto. specialize (IH W). right. revert IH.
      destruct K as [o l0 i ty a r E F|o l0 i ty a r E F|o l0 i ty a r E|o l0 i r E]; intros [IH|(G1 & G2)]; try (rewrite W in IH; injection IH as -> ->); cbn [fst snd] in *;
        try (destruct G2; subst l0); destruct i as [|[|i]]; cbn [nth_error] in E; try discriminate E; try (injection E as E1 E2 E3; subst); try (injection E as E1; subst).
      - unfold upd; rewrite Z.eqb_refl; auto.
      - auto. }
    destruct G as [->|[-> _]]; [inversion D|]; discriminate.
Qed.
Print Assumptions C91_moved_refuted.
(** An object is a lock and its first member another: they have the same address, and the first argument's operations are called for both *)
Theorem C91_same_address_refuted : forall t u x y st, st x = st y -> t <> u -> exists e, stmt [Lk t x; Lk u y] st st None = Some e /\ forall a, ~ In (Lock u a) e.
Proof.
  intros t u x y st E N. eexists. split.
  - unfold stmt, flat; cbn [map concat nth_error app locks]. unfold monitors; cbn [length map snd]. rewrite <- E.
    destruct (Verif.SmallSort.Proofs.small_sort_correct [st x; st x]) as (o & S1 & S2 & _). cbn [length] in S1. rewrite S1. assert (o = [st x; st x]) by (apply Permutation_length_2_inv in S2; destruct S2; auto). subst o.
    unfold tries, discrim. cbn [find snd]. rewrite Z.eqb_refl. cbn [fst app]. reflexivity.
  - intros a J. cbn [In] in J. repeat destruct J as [J|J]; try discriminate J; try contradiction; injection J; intros; subst; auto.
Qed.
Print Assumptions C91_same_address_refuted.
(** An exception from the acquisition of a lock is inside the try block that releases it: a lock that was not acquired is released *)
Theorem C91_raise_refuted : forall t x st, stmt [Lk t x] st st (Some 0%nat) = Some [Raise t (st x); Unlock t (st x)] /\ forall n w, moves n (free, [[Raise t (st x); Unlock t (st x)]]) w -> ~ finished w.
Proof.
  intros t x st. split.
  - unfold stmt, flat; cbn [map concat nth_error app locks]. unfold monitors; cbn [length map snd].
    destruct (Verif.SmallSort.Proofs.small_sort_correct [st x]) as (o & S1 & S2 & _). cbn [length] in S1. rewrite S1. apply Permutation_length_1_inv in S2. subst o.
    unfold tries, discrim. cbn [find snd]. rewrite Z.eqb_refl. reflexivity.
  - intros n w M.
    assert (G : w = (free, [[Raise t (st x); Unlock t (st x)]]) \/ w = (free, [[Unlock t (st x)]])).
    { remember (free, [[Raise t (st x); Unlock t (st x)]]) as w0 eqn:W. induction M as [|n w y z M IH K]; auto. specialize (IH W).
      destruct IH as [IH|IH]; subst; inversion K as [o l0 i ty a r E F|o l0 i ty a r E F|o l0 i ty a r E|o l0 i r E]; subst; destruct i as [|[|i]]; cbn [nth_error] in E; try discriminate E; injection E as E1 E2 E3; subst.
      - auto.
      - discriminate F. }
    intros D. destruct G as [-> | ->]; inversion D; discriminate.
Qed.
Print Assumptions C91_raise_refuted.
(** without arguments there is no statement *)
Theorem C91_empty : forall st st' bad, stmt [] st st' bad = None.
Proof. reflexivity. Qed.
Print Assumptions C91_empty.
