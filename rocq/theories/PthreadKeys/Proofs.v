(* The tables of Model.v implement the promises of Spec.v. *)

From Coq Require Import List Bool Arith Lia.
From Verif.PthreadKeys Require Import Model Spec.
Import ListNotations.

Lemma upd_same : forall A (f : nat -> A) x v, upd f x v x = v.
Proof. intros. unfold upd. now rewrite Nat.eqb_refl. Qed.
Lemma upd_other : forall A (f : nat -> A) x v y, y <> x -> upd f x v y = f y.
Proof. intros. unfold upd. apply Nat.eqb_neq in H. now rewrite H. Qed.

Ltac updc :=
  repeat match goal with
  | |- context [upd _ ?x _ ?x] => rewrite upd_same
  | H : context [upd _ ?x _ ?x] |- _ => rewrite upd_same in H
  | N : ?y <> ?x |- context [upd _ ?x _ ?y] => rewrite (upd_other _ _ x _ y N)
  | N : ?y <> ?x, H : context [upd _ ?x _ ?y] |- _ => rewrite (upd_other _ _ x _ y N) in H
  end.

Definition used_in (s : state) (t k : nat) : Prop :=
  exists f, data s t = Some f /\ e_used (f k) = true.

(* What the code would hand to a destructor for entry k. *)
Definition pend (s : state) (t k : nat) : nat :=
  match data s t with
  | None => 0
  | Some f => if e_used (f k) && negb (Nat.eqb (k_dtor (keys s k)) 0) then e_val (f k) else 0
  end.

Definition val_of (s : state) (t k : nat) : nat :=
  match data s t with
  | None => 0
  | Some f => if e_used (f k) then e_val (f k) else 0
  end.

Section Code.
Variable N junk : nat.

(* The state of the tables alone. *)
Record Tab (s : state) (a : astate) : Prop := {
  t_alive : forall k, k < N -> alive a k = k_used (keys s k);
  t_dtor : forall k, k < N -> k_used (keys s k) = true -> adtor a k = k_dtor (keys s k);
  t_list : forall k t, k < N -> (In t (k_thr (keys s k)) <-> used_in s t k);
  t_live : forall k t, used_in s t k -> k < N /\ k_used (keys s k) = true;
  t_gone : forall t, st s t = Gone -> data s t = None;
  t_end : forall t, match st s t with
                    | Scan att i _ => data s t <> None /\ i <= N /\
                        (forall k, used_in s t k -> att = 0 /\ i <= k)
                    | Calling att i | InDtor att i => data s t <> None /\ i < N /\
                        (forall k, used_in s t k -> att = 0 /\ i < k)
                    | _ => True
                    end;
  t_vals : forall t k, k < N -> k_used (keys s k) = true -> st s t = Running ->
             avals a t k = val_of s t k
}.

Definition a_tab (l : label) : Prop := is_table_op l = true.

Lemma list_ok_true : forall s a k, Tab s a -> k < N -> list_ok s k = true.
Proof.
  intros s a k T Hk. unfold list_ok. apply forallb_forall. intros t Ht.
  apply (t_list s a T k t Hk) in Ht. destruct Ht as (f & E & _). now rewrite E.
Qed.

Lemma find_free_some : forall ks n i j,
  find_free ks i n = Some j -> i <= j < i + n /\ k_used (ks j) = false.
Proof.
  induction n as [|n IH]; intros i j E; cbn [find_free] in E; [discriminate|].
  destruct (k_used (ks i)) eqn:U.
  - apply IH in E. split; [lia|tauto].
  - injection E as <-. split; [lia|auto].
Qed.

Lemma find_free_none : forall ks n i j,
  find_free ks i n = None -> i <= j < i + n -> k_used (ks j) = true.
Proof.
  induction n as [|n IH]; intros i j E Hj; cbn [find_free] in E; [lia|].
  destruct (k_used (ks i)) eqn:U; [|discriminate].
  destruct (Nat.eq_dec i j) as [<-|D]; [exact U|]. apply (IH (S i)); [exact E|lia].
Qed.

Lemma not_live_iff : forall s a k, Tab s a ->
  (negb (Nat.ltb k N) || negb (k_used (keys s k)) = true <-> ~ live N a k).
Proof.
  intros s a k T. unfold live.
  destruct (Nat.ltb_spec k N) as [L|L].
  - rewrite (t_alive s a T k L). destruct (k_used (keys s k)); cbn [negb orb].
    + split; [discriminate|]. intros H. exfalso. apply H. auto.
    + split; [intros _ [_ E]; discriminate|reflexivity].
  - cbn [negb orb]. split; [intros _ [A _]; lia|auto].
Qed.

Lemma live_iff : forall s a k, Tab s a ->
  (negb (Nat.ltb k N) || negb (k_used (keys s k)) = false <-> live N a k).
Proof.
  intros s a k T. unfold live.
  destruct (Nat.ltb_spec k N) as [L|L].
  - rewrite (t_alive s a T k L). destruct (k_used (keys s k)); cbn [negb orb]; split; intros H; try discriminate; auto.
    destruct H; discriminate.
  - cbn [negb orb]. split; [discriminate|intros [A _]; lia].
Qed.

Lemma Tab_ext : forall s a a', Tab s a ->
  alive a' = alive a -> adtor a' = adtor a -> avals a' = avals a -> Tab s a'.
Proof.
  intros s a a' [T1 T2 T3 T4 T5 T6 T7] E1 E2 E3.
  constructor; rewrite ?E1, ?E2, ?E3; assumption.
Qed.

(* A change of one thread's array and of the lists keeps the other threads. *)
Lemma used_other : forall s t t' k d, t' <> t ->
  data s t' = d t' -> (used_in s t' k <-> exists f, d t' = Some f /\ e_used (f k) = true).
Proof. intros. unfold used_in. now rewrite H0. Qed.

Lemma init_tab : Tab init ainit.
Proof.
  constructor; unfold init, ainit, used_in; cbn; auto; try discriminate.
  - intros k t _. split; [intros []|intros (f & E & _); discriminate].
  - intros k t (f & E & _). discriminate.
Qed.

Lemma create_tab : forall s a d s1 r,
  Tab s a -> key_create N s d = Ok s1 r ->
  exists a1, allowed N a (LCreate d) r a1 /\ Tab s1 a1.
Proof.
  intros s a d s1 r T E. unfold key_create in E.
  destruct (find_free (keys s) 0 N) as [i|] eqn:F.
  - injection E as <- <-. destruct (find_free_some _ _ _ _ F) as [B U].
    assert (Hi : i < N) by lia.
    assert (NU : forall t, ~ used_in s t i).
    { intros t Hu. apply (t_live s a T) in Hu. rewrite U in Hu. now destruct Hu. }
    eexists. split.
    { apply a_create; [exact Hi|]. rewrite (t_alive s a T i Hi). exact U. }
    destruct T as [T1 T2 T3 T4 T5 T6 T7].
    constructor; unfold set_keys, used_in, val_of; cbn [keys data st by_ calls alive adtor avals owed]; auto.
    + intros k Hk. destruct (Nat.eq_dec k i) as [->|D]; updc; auto.
    + intros k Hk. destruct (Nat.eq_dec k i) as [->|D]; updc; auto.
    + intros k t Hk. destruct (Nat.eq_dec k i) as [->|D]; updc; apply T3; auto.
    + intros k t Hu. destruct (T4 k t Hu) as [A B'].
      destruct (Nat.eq_dec k i) as [->|D]; updc; auto.
    + intros t k Hk HU HR. destruct (Nat.eq_dec k i) as [->|D]; updc.
      * destruct (data s t) as [f|] eqn:Ed; [|reflexivity].
        destruct (e_used (f i)) eqn:Eu; [|reflexivity].
        exfalso. apply (NU t). exists f. auto.
      * apply T7; auto.
  - injection E as <- <-. exists a. split; [|exact T]. apply a_nocreate.
    intros k Hk. rewrite (t_alive s a T k Hk). apply (find_free_none _ _ _ _ F). lia.
Qed.

Lemma clear_used : forall s a k t k', Tab s a -> k < N ->
  ((exists f, clear_entries (data s) k (k_thr (keys s k)) t = Some f /\ e_used (f k') = true)
   <-> (k' <> k /\ used_in s t k')).
Proof.
  intros s a k t k' T Hk. unfold clear_entries.
  destruct (existsb (Nat.eqb t) (k_thr (keys s k))) eqn:X.
  - apply existsb_exists in X. destruct X as (x & Hx & Ex). apply Nat.eqb_eq in Ex. subst x.
    apply (t_list s a T k t Hk) in Hx. destruct Hx as (f & Ef & Uf). unfold used_in. rewrite Ef.
    destruct (Nat.eq_dec k' k) as [->|D].
    + split; [|tauto]. intros (g & Eg & Ug). injection Eg as <-. updc. discriminate.
    + split.
      * intros (g & Eg & Ug). injection Eg as <-. updc. split; [exact D|]. exists f; auto.
      * intros (_ & g & Eg & Ug). injection Eg as <-. eexists. split; [reflexivity|]. updc. exact Ug.
  - unfold used_in. destruct (Nat.eq_dec k' k) as [->|D]; [|tauto].
    split; [|tauto]. intros (f & Ef & Uf). exfalso.
    assert (In t (k_thr (keys s k))) by (apply (t_list s a T k t Hk); exists f; auto).
    assert (existsb (Nat.eqb t) (k_thr (keys s k)) = true); [|congruence].
    apply existsb_exists. exists t. split; [assumption|apply Nat.eqb_refl].
Qed.

Lemma clear_none : forall d k l t, clear_entries d k l t = None <-> d t = None.
Proof.
  intros. unfold clear_entries. destruct (existsb (Nat.eqb t) l); [|tauto].
  destruct (d t); split; congruence.
Qed.

Lemma clear_val : forall s k t k', k' <> k ->
  match clear_entries (data s) k (k_thr (keys s k)) t with
  | None => 0
  | Some f => if e_used (f k') then e_val (f k') else 0
  end = val_of s t k'.
Proof.
  intros s k t k' D. unfold clear_entries, val_of.
  destruct (existsb (Nat.eqb t) (k_thr (keys s k))); [|reflexivity].
  destruct (data s t) as [f|]; [|reflexivity]. updc. reflexivity.
Qed.

Lemma delete_tab : forall s a k, Tab s a ->
  exists s1 r a1, key_delete N s k = Ok s1 r /\ allowed N a (LDelete k) r a1 /\ Tab s1 a1.
Proof.
  intros s a k T. unfold key_delete.
  destruct (negb (Nat.ltb k N) || negb (k_used (keys s k))) eqn:B.
  - exists s, REInval, a. split; [reflexivity|]. split; [|exact T].
    apply a_nodelete. apply (not_live_iff s a k T). exact B.
  - apply (live_iff s a k T) in B. destruct B as [Hk Ha].
    rewrite (list_ok_true s a k T Hk). cbn [negb].
    do 3 eexists. split; [reflexivity|]. split; [apply a_delete; split; assumption|].
    pose proof (fun t k' => clear_used s a k t k' T Hk) as CU.
    destruct T as [T1 T2 T3 T4 T5 T6 T7].
    constructor; unfold used_in, val_of; cbn [keys data st by_ calls alive adtor avals owed].
    + intros k' Hk'. destruct (Nat.eq_dec k' k) as [->|D]; updc; auto.
    + intros k' Hk' HU. destruct (Nat.eq_dec k' k) as [->|D]; updc; auto. discriminate.
    + intros k' t Hk'. rewrite CU. destruct (Nat.eq_dec k' k) as [->|D]; updc; cbn [k_thr In]; [tauto|].
      rewrite T3 by exact Hk'. tauto.
    + intros k' t Hu. rewrite CU in Hu. destruct Hu as [D Hu]. updc. apply T4 in Hu. exact Hu.
    + intros t Hg. apply clear_none. auto.
    + intros t. specialize (T6 t). destruct (st s t); auto.
      * destruct T6 as (A & B & C). split; [rewrite clear_none; exact A|]. split; [exact B|].
        intros k' Hu. apply CU in Hu. apply C, Hu.
      * destruct T6 as (A & B & C). split; [rewrite clear_none; exact A|]. split; [exact B|].
        intros k' Hu. apply CU in Hu. apply C, Hu.
      * destruct T6 as (A & B & C). split; [rewrite clear_none; exact A|]. split; [exact B|].
        intros k' Hu. apply CU in Hu. apply C, Hu.
    + intros t k' Hk' HU HR. destruct (Nat.eq_dec k' k) as [->|D]; updc; [discriminate|].
      rewrite clear_val by exact D. apply T7; auto.
Qed.

Lemma set_tab : forall s a t k v, Tab s a -> st s t = Running ->
  exists s1 r a1, setspecific N junk s t k v = Ok s1 r /\ allowed N a (LSet t k v) r a1 /\ Tab s1 a1.
Proof.
  intros s a t k v T HR. unfold setspecific.
  assert (AO : forall k', (e_used (array_of junk s t k') = true <-> used_in s t k')).
  { intros k'. unfold array_of, used_in. destruct (data s t) as [f|]; cbn [e_used].
    - split; [intros; exists f; auto|]. intros (g & Eg & U). now injection Eg as <-.
    - split; [discriminate|]. intros (g & Eg & U). discriminate. }
  assert (AV : forall k', (if e_used (array_of junk s t k') then e_val (array_of junk s t k') else 0) = val_of s t k').
  { intros k'. unfold array_of, val_of. destruct (data s t) as [f|]; reflexivity. }
  set (f := array_of junk s t) in *.
  destruct (negb (Nat.ltb k N) || negb (k_used (keys s k))) eqn:B.
  - do 3 eexists. split; [reflexivity|]. split; [apply a_noset; apply (not_live_iff s a k T); exact B|].
    assert (UU : forall t' k', (exists g, upd (data s) t (Some f) t' = Some g /\ e_used (g k') = true) <-> used_in s t' k').
    { intros t' k'. destruct (Nat.eq_dec t' t) as [->|D]; updc; [|reflexivity].
      rewrite <- AO. split; [intros (g & Eg & U); injection Eg as <-; exact U|intros; exists f; auto]. }
    destruct T as [T1 T2 T3 T4 T5 T6 T7].
    constructor; unfold set_data, used_in, val_of; cbn [keys data st by_ calls]; auto.
    + intros. rewrite UU. auto.
    + intros k' t' Hu. rewrite UU in Hu. eauto.
    + intros t' Hg. destruct (Nat.eq_dec t' t) as [->|D]; updc; [congruence|auto].
    + intros t'. specialize (T6 t'). destruct (Nat.eq_dec t' t) as [->|D]; updc; [rewrite HR; exact I|].
      destruct (st s t'); auto; destruct T6 as (A1 & A2 & A3);
        (split; [exact A1|split; [exact A2|intros k' Hu; apply A3; exact Hu]]).
    + intros t' k' Hk' HU HR'. rewrite T7 by assumption. destruct (Nat.eq_dec t' t) as [->|D]; updc; [|reflexivity].
      symmetry. apply AV.
  - apply (live_iff s a k T) in B. destruct B as [Hk Ha].
    pose proof (list_ok_true s a k T Hk) as LO.
    assert (KU : k_used (keys s k) = true) by (rewrite <- (t_alive s a T k Hk); exact Ha).
    assert (UU : forall t' k', (exists g, upd (data s) t (Some (upd f k (mkEnt true v))) t' = Some g /\ e_used (g k') = true)
               <-> ((t' = t /\ k' = k) \/ used_in s t' k')).
    { intros t' k'. destruct (Nat.eq_dec t' t) as [->|D]; updc.
      - split.
        + intros (g & Eg & U). injection Eg as <-. destruct (Nat.eq_dec k' k) as [->|D]; [auto|].
          updc. right. apply AO. exact U.
        + intros U. eexists. split; [reflexivity|]. destruct (Nat.eq_dec k' k) as [->|D]; updc; [reflexivity|].
          destruct U as [[_ E]|U]; [congruence|]. apply AO. exact U.
      - unfold used_in. split; [auto|]. intros [[E _]|U]; [congruence|exact U]. }
    assert (VV : forall t' k', k' < N -> st s t' = Running -> k_used (keys s k') = true ->
               upd (avals a) t (upd (avals a t) k v) t' k'
               = match upd (data s) t (Some (upd f k (mkEnt true v))) t' with
                 | None => 0
                 | Some g => if e_used (g k') then e_val (g k') else 0 end).
    { intros t' k' Hk' HR' HU'. destruct (Nat.eq_dec t' t) as [->|D]; updc.
      - destruct (Nat.eq_dec k' k) as [->|D]; updc; [reflexivity|].
        rewrite (t_vals s a T t k' Hk' HU' HR'). symmetry. apply AV.
      - rewrite (t_vals s a T t' k' Hk' HU' HR'). reflexivity. }
    destruct (e_used (f k)) eqn:EU.
    + do 3 eexists. split; [reflexivity|]. split; [apply a_set; split; assumption|].
      assert (US : used_in s t k) by (apply AO; exact EU).
      destruct T as [T1 T2 T3 T4 T5 T6 T7].
      constructor; unfold set_data, used_in, val_of; cbn [keys data st by_ calls alive adtor avals owed]; auto.
      * intros k' t' Hk'. rewrite UU. rewrite T3 by exact Hk'. split; [auto|].
        intros [[-> ->]|U]; auto.
      * intros k' t' Hu. rewrite UU in Hu. destruct Hu as [[-> ->]|U]; eauto.
      * intros t' Hg. destruct (Nat.eq_dec t' t) as [->|D]; updc; [congruence|auto].
      * intros t'. specialize (T6 t'). destruct (Nat.eq_dec t' t) as [->|D]; updc; [rewrite HR; exact I|].
        destruct (st s t'); auto; destruct T6 as (A1 & A2 & A3);
          (split; [exact A1|split; [exact A2|intros k' Hu; apply A3; exact Hu]]).
    + rewrite LO. cbn [negb]. do 3 eexists. split; [reflexivity|]. split; [apply a_set; split; assumption|].
      destruct T as [T1 T2 T3 T4 T5 T6 T7].
      constructor; unfold set_data, used_in, val_of; cbn [keys data st by_ calls alive adtor avals owed].
      * intros k' Hk'. destruct (Nat.eq_dec k' k) as [->|D]; updc; cbn [k_used]; auto.
      * intros k' Hk' HU'. destruct (Nat.eq_dec k' k) as [->|D]; updc; cbn [k_dtor]; auto.
      * intros k' t' Hk'. rewrite UU. destruct (Nat.eq_dec k' k) as [->|D]; updc; cbn [k_thr].
        -- rewrite in_app_iff. cbn [In]. rewrite T3 by exact Hk. split.
           ++ intros [U|[->|[]]]; auto.
           ++ intros [[-> _]|U]; auto.
        -- rewrite T3 by exact Hk'. split; [auto|]. intros [[_ E]|U]; [congruence|exact U].
      * intros k' t' Hu. rewrite UU in Hu.
        destruct (Nat.eq_dec k' k) as [->|D]; updc; cbn [k_used]; auto.
        destruct Hu as [[_ E]|U]; [congruence|]. eauto.
      * intros t' Hg. destruct (Nat.eq_dec t' t) as [->|D]; updc; [congruence|auto].
      * intros t'. specialize (T6 t'). destruct (Nat.eq_dec t' t) as [->|D]; updc; [rewrite HR; exact I|].
        destruct (st s t'); auto; destruct T6 as (A1 & A2 & A3);
          (split; [exact A1|split; [exact A2|intros k' Hu; apply A3; exact Hu]]).
      * intros t' k' Hk' HU' HR'. apply VV; auto.
        destruct (Nat.eq_dec k' k) as [->|D]; updc; auto.
Qed.

Lemma get_tab : forall s a t k, Tab s a -> st s t = Running ->
  allowed N a (LGet t k) (RVal (getspecific N s t k)) a.
Proof.
  intros s a t k T HR. unfold getspecific.
  destruct (negb (Nat.ltb k N) || negb (k_used (keys s k))) eqn:B.
  - apply a_noget. apply (not_live_iff s a k T). exact B.
  - apply (live_iff s a k T) in B. pose proof B as L. destruct B as [Hk Ha].
    assert (KU : k_used (keys s k) = true) by (rewrite <- (t_alive s a T k Hk); exact Ha).
    change (allowed N a (LGet t k) (RVal (val_of s t k)) a).
    rewrite <- (t_vals s a T t k Hk KU HR). apply a_get. exact L.
Qed.
End Code.
