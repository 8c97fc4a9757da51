(* The end of a thread: the destructors owed to it are called once each. *)

From Coq Require Import List Bool Arith Lia.
From Verif.PthreadKeys Require Import Model Spec Proofs.
Import ListNotations.

Section Code.
Variable N junk : nat.
Notation Tab := (Tab N).

(* The owed calls, in terms of the entries. *)
Definition owed_ok (s : state) (a : astate) (t : nat) : Prop :=
  match st s t with
  | Running => True
  | Scan _ _ _ | InDtor _ _ => forall k, owed a t k = pend s t k
  | Calling _ i =>
      (forall k, k <> i -> owed a t k = pend s t k) /\
      owed a t i <> 0 /\
      (exists f, data s t = Some f /\ e_used (f i) = false /\ e_val (f i) = owed a t i) /\
      k_used (keys s i) = true /\ k_dtor (keys s i) <> 0
  | Gone => forall k, owed a t k = 0
  end.

Definition Sim (s : state) (a : astate) : Prop := Tab s a /\ forall t, owed_ok s a t.

Lemma end_tab : forall s a t j, Tab s a -> st s t = Running ->
  exists s1 r, thread_end s t j = Ok s1 r /\ (r = RNone \/ r = RGone) /\ Tab s1 a.
Proof.
  intros s a t j T HR. unfold thread_end.
  destruct (data s t) as [f|] eqn:Ed.
  - do 2 eexists. split; [reflexivity|]. split; [auto|].
    destruct T as [T1 T2 T3 T4 T5 T6 T7].
    constructor; unfold used_in, val_of; cbn [keys data st by_ calls]; auto.
    + intros t' Hg. destruct (Nat.eq_dec t' t) as [->|D]; updc; [discriminate|auto].
    + intros t'. destruct (Nat.eq_dec t' t) as [->|D]; updc; [|apply T6].
      split; [congruence|]. split; [lia|]. intros; split; [auto|lia].
    + intros t' k Hk HU HR'. destruct (Nat.eq_dec t' t) as [->|D]; updc; [discriminate|]. apply T7; auto.
  - do 2 eexists. split; [reflexivity|]. split; [auto|].
    destruct T as [T1 T2 T3 T4 T5 T6 T7].
    constructor; unfold used_in, val_of; cbn [keys data st by_ calls]; auto.
    + intros t' Hg. destruct (Nat.eq_dec t' t) as [->|D]; updc; [exact Ed|auto].
    + intros t'. destruct (Nat.eq_dec t' t) as [->|D]; updc; [exact I|apply T6].
    + intros t' k Hk HU HR'. destruct (Nat.eq_dec t' t) as [->|D]; updc; [discriminate|]. apply T7; auto.
Qed.

(* Entry i of thread t is released, with whatever value is left in it. *)
Lemma release_tab : forall s a t f i pc' v,
  Tab s a -> data s t = Some f -> st s t <> Running ->
  (pc' = Calling 0 i \/ (exists c, pc' = Scan 0 (S i) c)) ->
  i < N -> (forall k, used_in s t k -> i <= k) ->
  Tab (mkState (upd (keys s) i (mkKey (k_used (keys s i)) (k_dtor (keys s i))
                                       (remove Nat.eq_dec t (k_thr (keys s i)))))
               (upd (data s) t (Some (upd f i (mkEnt false v))))
               (upd (st s) t pc') (by_ s) (calls s)) a.
Proof.
  intros s a t f i pc' v T Ed HR HP Hi HS.
  assert (UU : forall t' k', (exists g, upd (data s) t (Some (upd f i (mkEnt false v))) t' = Some g /\ e_used (g k') = true)
             <-> (used_in s t' k' /\ ~ (t' = t /\ k' = i))).
  { intros t' k'. unfold used_in. destruct (Nat.eq_dec t' t) as [->|D]; updc.
    - rewrite Ed. split.
      + intros (g & Eg & U). injection Eg as <-. destruct (Nat.eq_dec k' i) as [->|D]; updc; [discriminate|].
        split; [exists f; auto|]. tauto.
      + intros ((g & Eg & U) & NE). injection Eg as <-. eexists. split; [reflexivity|].
        destruct (Nat.eq_dec k' i) as [->|D]; updc; [tauto|exact U].
    - split; [intros U; split; [exact U|tauto]|tauto]. }
  destruct T as [T1 T2 T3 T4 T5 T6 T7].
  constructor; unfold used_in, val_of; cbn [keys data st by_ calls].
  - intros k Hk. destruct (Nat.eq_dec k i) as [->|D]; updc; cbn [k_used]; auto.
  - intros k Hk. destruct (Nat.eq_dec k i) as [->|D]; updc; cbn [k_used k_dtor]; auto.
  - intros k t' Hk. rewrite UU. destruct (Nat.eq_dec k i) as [->|D]; updc; cbn [k_thr].
    + split.
      * intros Hin. apply in_remove in Hin. destruct Hin as [Hin NE]. split; [apply T3; auto|tauto].
      * intros [U NE]. apply in_in_remove; [intros ->; tauto|]. apply T3; auto.
    + rewrite T3 by exact Hk. split; [intros U; split; [exact U|tauto]|tauto].
  - intros k t' Hu. rewrite UU in Hu. destruct Hu as [Hu _]. apply T4 in Hu.
    destruct (Nat.eq_dec k i) as [->|D]; updc; cbn [k_used]; exact Hu.
  - intros t' Hg. destruct (Nat.eq_dec t' t) as [->|D]; updc; [|auto].
    destruct HP as [->|(c & ->)]; discriminate.
  - intros t'. destruct (Nat.eq_dec t' t) as [->|D]; updc.
    + destruct HP as [->|(c & ->)]; (split; [congruence|]; split; [lia|]);
        intros k Hu; (split; [reflexivity|]); rewrite <- (upd_same _ (data s) t (Some (upd f i (mkEnt false v)))) in Hu;
        apply UU in Hu; destruct Hu as [Hu NE]; apply HS in Hu;
        (assert (k <> i) by (intros ->; tauto)); lia.
    + specialize (T6 t'). destruct (st s t'); auto.
  - intros t' k Hk HU HR'. destruct (Nat.eq_dec t' t) as [->|D]; updc; [destruct HP as [->|(c & ->)]; discriminate|].
    apply T7; auto. destruct (Nat.eq_dec k i) as [->|D']; updc; auto.
Qed.

(* A change of the position of thread t only. *)
Lemma move_tab : forall s a t pc', Tab s a -> st s t <> Running ->
  (match pc' with
   | Scan att i _ => data s t <> None /\ i <= N /\ (forall k, used_in s t k -> att = 0 /\ i <= k)
   | Calling att i | InDtor att i => data s t <> None /\ i < N /\ (forall k, used_in s t k -> att = 0 /\ i < k)
   | _ => False
   end) ->
  forall cs, Tab (mkState (keys s) (data s) (upd (st s) t pc') (by_ s) cs) a.
Proof.
  intros s a t pc' [T1 T2 T3 T4 T5 T6 T7] HR HP cs.
  constructor; unfold used_in, val_of; cbn [keys data st by_ calls]; auto.
  - intros t' Hg. destruct (Nat.eq_dec t' t) as [->|D]; updc; [|auto]. subst pc'. tauto.
  - intros t'. destruct (Nat.eq_dec t' t) as [->|D]; updc; [|apply T6]. destruct pc'; tauto.
  - intros t' k Hk HU HR'. destruct (Nat.eq_dec t' t) as [->|D]; updc; [subst pc'; tauto|]. apply T7; auto.
Qed.

Lemma scan_tab : forall s a t att i c, Tab s a -> st s t = Scan att i c ->
  exists s1 r, scan N s t att i c = Ok s1 r /\ (r = RNone \/ r = RGone) /\ Tab s1 a.
Proof.
  intros s a t att i c T HS. unfold scan.
  pose proof (t_end N s a T t) as TE. rewrite HS in TE. destruct TE as (Dn & Hi & Hu).
  destruct (data s t) as [f|] eqn:Ed; [|congruence].
  destruct (Nat.ltb_spec i N) as [L|L].
  - destruct (e_used (f i)) eqn:EU.
    + rewrite (list_ok_true N s a i T L). cbn [negb].
      assert (U : used_in s t i) by (exists f; auto). destruct (Hu i U) as [-> _].
      assert (HU : forall k, used_in s t k -> i <= k) by (intros k Hk; apply (Hu k Hk)).
      assert (NR : st s t <> Running) by congruence.
      destruct (negb (Nat.eqb (e_val (f i)) 0) && negb (Nat.eqb (k_dtor (keys s i)) 0)).
      * do 2 eexists. split; [reflexivity|]. split; [auto|].
        apply release_tab; auto.
      * do 2 eexists. split; [reflexivity|]. split; [auto|].
        pose proof (release_tab s a t f i (Scan 0 (S i) c) 0 T Ed NR (or_intror (ex_intro _ c eq_refl)) L HU) as R.
        assert (X : forall k', upd (upd f i (mkEnt false (e_val (f i)))) i (mkEnt false 0) k' = upd f i (mkEnt false 0) k').
        { intros k'. destruct (Nat.eq_dec k' i) as [->|D]; updc; reflexivity. }
        destruct R as [T1 T2 T3 T4 T5 T6 T7]. cbn [keys data st by_ calls] in *.
        assert (UX : forall t' k', (exists g, upd (data s) t (Some (upd (upd f i (mkEnt false (e_val (f i)))) i (mkEnt false 0))) t' = Some g /\ e_used (g k') = true)
                 <-> (exists g, upd (data s) t (Some (upd f i (mkEnt false 0))) t' = Some g /\ e_used (g k') = true)).
        { intros t' k'. destruct (Nat.eq_dec t' t) as [->|D]; updc; [|reflexivity].
          split; intros (g & Eg & Ug); injection Eg as <-; (eexists; split; [reflexivity|]).
          - rewrite X in Ug. exact Ug.
          - rewrite X. exact Ug. }
        constructor; unfold used_in, val_of in *; cbn [keys data st by_ calls] in *; auto.
        -- intros. rewrite UX. auto.
        -- intros k t' Hx. rewrite UX in Hx. eauto.
        -- intros t' Hg. specialize (T5 t' Hg). destruct (Nat.eq_dec t' t) as [->|D]; updc; [discriminate|auto].
        -- intros t'. specialize (T6 t'). destruct (Nat.eq_dec t' t) as [->|D].
           ++ updc. destruct T6 as (A1 & A2 & A3). split; [congruence|]. split; [exact A2|].
              intros k Hx. apply A3. destruct Hx as (g & Eg & Ug). injection Eg as <-. rewrite X in Ug.
              eexists. split; [reflexivity|exact Ug].
           ++ updc. exact T6.
        -- intros t' k Hk HUk HR'. destruct (Nat.eq_dec t' t) as [->|D]; updc; [discriminate|].
           specialize (T7 t' k Hk HUk). updc. apply T7. exact HR'.
    + do 2 eexists. split; [reflexivity|]. split; [auto|]. apply move_tab; [exact T|congruence|].
      rewrite Ed. split; [congruence|]. split; [lia|]. intros k Hk. destruct (Hu k Hk) as [A B]. split; [exact A|].
      assert (k <> i); [|lia]. intros ->. destruct Hk as (g & Eg & Ug). rewrite Ed in Eg. injection Eg as <-. congruence.
  - assert (NU : forall k, ~ used_in s t k).
    { intros k Hk. destruct (Hu k Hk) as [_ B]. apply (t_live N s a T) in Hk. lia. }
    destruct (c && Nat.ltb (S att) 4).
    + do 2 eexists. split; [reflexivity|]. split; [auto|]. apply move_tab; [exact T|congruence|].
      rewrite Ed. split; [congruence|]. split; [lia|]. intros k Hk. destruct (NU k Hk).
    + do 2 eexists. split; [reflexivity|]. split; [auto|].
      assert (UU : forall t' k', (exists g, upd (data s) t None t' = Some g /\ e_used (g k') = true) <-> used_in s t' k').
      { intros t' k'. destruct (Nat.eq_dec t' t) as [->|D]; updc; [|reflexivity].
        split; [intros (g & Eg & _); discriminate|]. intros Hk. destruct (NU k' Hk). }
      destruct T as [T1 T2 T3 T4 T5 T6 T7].
      constructor; unfold used_in, val_of; cbn [keys data st by_ calls]; auto.
      * intros. rewrite UU. auto.
      * intros k t' Hx. rewrite UU in Hx. eauto.
      * intros t' Hg. destruct (Nat.eq_dec t' t) as [->|D]; updc; auto.
      * intros t'. destruct (Nat.eq_dec t' t) as [->|D]; updc; [exact I|].
        specialize (T6 t'). exact T6.
      * intros t' k Hk HUk HR'. destruct (Nat.eq_dec t' t) as [->|D]; updc; [discriminate|]. apply T7; auto.
Qed.

Lemma call_tab : forall s a t att i s1 r, Tab s a -> st s t = Calling att i ->
  call_dtor s t att i = Ok s1 r -> Tab s1 a.
Proof.
  intros s a t att i s1 r T HS E. unfold call_dtor in E.
  pose proof (t_end N s a T t) as TE. rewrite HS in TE.
  destruct (data s t) as [f|] eqn:Ed; [|discriminate].
  destruct (Nat.eqb (k_dtor (keys s i)) 0); [discriminate|]. injection E as <- <-.
  apply move_tab; [exact T|congruence|]. rewrite Ed. exact TE.
Qed.

Lemma back_tab : forall s a t att i, Tab s a -> st s t = InDtor att i ->
  exists s1, back s t att i = Ok s1 RNone /\ Tab s1 a.
Proof.
  intros s a t att i T HS. unfold back.
  pose proof (t_end N s a T t) as TE. rewrite HS in TE. destruct TE as (Dn & Hi & Hu).
  destruct (data s t) as [f|] eqn:Ed; [|congruence].
  eexists. split; [reflexivity|].
  assert (UU : forall t' k', (exists g, upd (data s) t (Some (upd f i (mkEnt (e_used (f i)) 0))) t' = Some g /\ e_used (g k') = true)
             <-> used_in s t' k').
  { intros t' k'. unfold used_in. destruct (Nat.eq_dec t' t) as [->|D]; updc; [|reflexivity].
    rewrite Ed. split; intros (g & Eg & Ug); injection Eg as <-; (eexists; split; [reflexivity|]);
      destruct (Nat.eq_dec k' i) as [->|D]; updc; cbn [e_used] in *; auto. }
  destruct T as [T1 T2 T3 T4 T5 T6 T7].
  constructor; unfold used_in, val_of; cbn [keys data st by_ calls]; auto.
  - intros. rewrite UU. auto.
  - intros k t' Hx. rewrite UU in Hx. eauto.
  - intros t' Hg. destruct (Nat.eq_dec t' t) as [->|D]; updc; [discriminate|auto].
  - intros t'. destruct (Nat.eq_dec t' t) as [->|D].
    + rewrite !upd_same. split; [congruence|]. split; [lia|]. intros k Hx.
      rewrite <- (upd_same _ (data s) t (Some (upd f i (mkEnt (e_used (f i)) 0)))) in Hx.
      apply UU in Hx. destruct (Hu k Hx). lia.
    + updc. specialize (T6 t'). exact T6.
  - intros t' k Hk HUk HR'. destruct (Nat.eq_dec t' t) as [->|D]; updc; [discriminate|]. apply T7; auto.
Qed.

Lemma owed_frame : forall s a s1 a1 t,
  st s1 t = st s t -> data s1 t = data s t ->
  (forall k, owed a1 t k = owed a t k) ->
  (forall k, used_in s t k -> k_dtor (keys s1 k) = k_dtor (keys s k)) ->
  (forall att i, st s t = Calling att i ->
     k_used (keys s1 i) = k_used (keys s i) /\ k_dtor (keys s1 i) = k_dtor (keys s i)) ->
  owed_ok s a t -> owed_ok s1 a1 t.
Proof.
  intros s a s1 a1 t E1 E2 E3 E4 E5 H. unfold owed_ok in *. rewrite E1.
  assert (P : forall k, pend s1 t k = pend s t k).
  { intros k. unfold pend. rewrite E2. destruct (data s t) as [f|] eqn:Ed; [|reflexivity].
    destruct (e_used (f k)) eqn:U; [|reflexivity]. rewrite E4; [reflexivity|]. exists f; auto. }
  destruct (st s t) as [|att i c|att i|att i|]; auto.
  - intros k. rewrite E3, P. apply H.
  - destruct H as (H1 & H2 & H3 & H4 & H5). rewrite !E3, E2.
    destruct (E5 att i eq_refl) as [Q1 Q2]. rewrite Q1, Q2.
    split; [|auto]. intros k D. rewrite E3, P. auto.
  - intros k. rewrite E3, P. apply H.
  - intros k. rewrite E3. apply H.
Qed.

Lemma sim_create : forall s a d s1 r, Sim s a -> key_create N s d = Ok s1 r ->
  exists a1, allowed N a (LCreate d) r a1 /\ Sim s1 a1.
Proof.
  intros s a d s1 r [T O] E. destruct (create_tab N s a d s1 r T E) as (a1 & A & T1).
  exists a1. split; [exact A|]. split; [exact T1|]. intros t.
  unfold key_create in E. destruct (find_free (keys s) 0 N) as [i|] eqn:F.
  - injection E as <- <-. destruct (find_free_some _ _ _ _ F) as [B U]. inversion A; subst.
    apply (owed_frame s a); auto; unfold set_keys; cbn [keys data st].
    + intros k Hk. destruct (Nat.eq_dec k i) as [->|D]; updc; auto.
      apply (t_live N s a T) in Hk. destruct Hk. congruence.
    + intros att i0 Hc. specialize (O t). unfold owed_ok in O. rewrite Hc in O.
      destruct O as (_ & _ & _ & KU & _). assert (i0 <> i) by congruence. updc. auto.
  - injection E as <- <-. inversion A; subst. auto.
Qed.

Lemma clear_ent : forall d k l t f, clear_entries d k l t = Some f ->
  exists g, d t = Some g /\ (forall k', k' <> k -> f k' = g k') /\ e_val (f k) = e_val (g k).
Proof.
  intros d k l t f E. unfold clear_entries in E. destruct (existsb (Nat.eqb t) l).
  - destruct (d t) as [g|]; [|discriminate]. injection E as <-. exists g. split; [reflexivity|].
    split; [intros; now updc|now updc].
  - exists f. auto.
Qed.

Lemma sim_delete : forall s a k, Sim s a -> polite s (LDelete k) ->
  exists s1 r a1, key_delete N s k = Ok s1 r /\ allowed N a (LDelete k) r a1 /\ Sim s1 a1.
Proof.
  intros s a k [T O] P. destruct (delete_tab N s a k T) as (s1 & r & a1 & E & A & T1).
  exists s1, r, a1. split; [exact E|]. split; [exact A|]. split; [exact T1|]. intros t.
  unfold key_delete in E. destruct (negb (Nat.ltb k N) || negb (k_used (keys s k))) eqn:B.
  { injection E as <- <-. inversion A; subst. auto. }
  apply (live_iff N s a k T) in B. destruct B as [Hk Ha].
  rewrite (list_ok_true N s a k T Hk) in E. cbn [negb] in E. injection E as <- <-. inversion A; subst.
  cbn [polite] in P. specialize (O t).
  pose proof (clear_used N s a k) as CU.
  assert (PE : forall k', upd (owed a t) k 0 k' = 0 /\ k' = k \/ k' <> k /\ upd (owed a t) k 0 k' = owed a t k').
  { intros k'. destruct (Nat.eq_dec k' k) as [->|D]; updc; auto. }
  set (s1 := mkState _ _ _ _ _).
  assert (PP : forall k', pend s1 t k' = if Nat.eqb k' k then 0 else pend s t k').
  { intros k'. unfold pend, s1. cbn [data keys].
    destruct (Nat.eqb_spec k' k) as [->|D].
    - destruct (clear_entries (data s) k (k_thr (keys s k)) t) as [f|] eqn:C; [|reflexivity].
      destruct (e_used (f k)) eqn:U; [|reflexivity].
      exfalso. assert (X : k <> k /\ used_in s t k) by (apply CU; auto; exists f; auto). tauto.
    - updc. unfold clear_entries. destruct (existsb (Nat.eqb t) (k_thr (keys s k))); [|reflexivity].
      destruct (data s t) as [f|]; [|reflexivity]. now updc. }
  assert (OP : forall k', k' <> k -> owed a t k' = pend s t k' -> upd (owed a t) k 0 k' = pend s1 t k').
  { intros k' D Q. rewrite PP. apply Nat.eqb_neq in D. rewrite D. apply Nat.eqb_neq in D. updc. exact Q. }
  assert (OK : upd (owed a t) k 0 k = pend s1 t k).
  { rewrite PP, Nat.eqb_refl. now updc. }
  unfold owed_ok in *. change (st s1 t) with (st s t). cbn [owed].
  destruct (st s t) as [|att i c|att i|att i|] eqn:ES; auto.
  - intros k'. destruct (Nat.eq_dec k' k) as [->|D]; auto.
  - destruct O as (Q1 & Q2 & (f & Ef & Uf & Vf) & Q4 & Q5).
    assert (NE : i <> k) by (intros ->; apply (P t att ES)).
    unfold s1 at 2 3 4. cbn [data keys]. updc.
    split; [|split; [exact Q2|]].
    + intros k' D. destruct (Nat.eq_dec k' k) as [->|D']; [now rewrite upd_same|auto].
    + split; [|auto].
      destruct (clear_entries (data s) k (k_thr (keys s k)) t) as [g|] eqn:C.
      * destruct (clear_ent _ _ _ _ _ C) as (f' & Ef' & W1 & W2). rewrite Ef in Ef'. injection Ef' as <-.
        exists g. split; [reflexivity|]. rewrite (W1 i NE). auto.
      * apply clear_none in C. congruence.
  - intros k'. destruct (Nat.eq_dec k' k) as [->|D]; auto.
  - intros k'. destruct (PE k') as [[Q _]|[_ Q]]; rewrite Q; auto.
Qed.

Lemma sim_set : forall s a t k v, Sim s a -> st s t = Running ->
  exists s1 r a1, setspecific N junk s t k v = Ok s1 r /\ allowed N a (LSet t k v) r a1 /\ Sim s1 a1.
Proof.
  intros s a t k v [T O] HR. destruct (set_tab N junk s a t k v T HR) as (s1 & r & a1 & E & A & T1).
  exists s1, r, a1. split; [exact E|]. split; [exact A|]. split; [exact T1|]. intros t'.
  assert (OA : forall k', owed a1 t' k' = owed a t' k') by (intros k'; inversion A; subst; reflexivity).
  destruct (Nat.eq_dec t' t) as [->|D].
  - assert (ST : st s1 t = Running).
    { unfold setspecific in E. destruct (negb (Nat.ltb k N) || _); [injection E as <- <-; exact HR|].
      destruct (e_used _); [injection E as <- <-; exact HR|].
      destruct (negb (list_ok s k)); [discriminate|]. injection E as <- <-. exact HR. }
    unfold owed_ok. rewrite ST. exact I.
  - unfold setspecific in E. destruct (negb (Nat.ltb k N) || negb (k_used (keys s k))) eqn:B.
    + injection E as <- <-. apply (owed_frame s a); auto; unfold set_data; cbn [keys data st]; now updc.
    + assert (KU : k_used (keys s k) = true).
      { destruct (k_used (keys s k)); [reflexivity|]. destruct (Nat.ltb k N); discriminate. }
      destruct (e_used _).
      * injection E as <- <-. apply (owed_frame s a); auto; unfold set_data; cbn [keys data st]; now updc.
      * destruct (negb (list_ok s k)); [discriminate|]. injection E as <- <-.
        apply (owed_frame s a); auto; cbn [keys data st].
        -- now updc.
        -- intros k' _. destruct (Nat.eq_dec k' k) as [->|D']; now updc.
        -- intros att i _. destruct (Nat.eq_dec i k) as [->|D']; updc; auto.
Qed.

Lemma pend_vals : forall s a t k, Tab s a -> st s t = Running ->
  (if Nat.ltb k N && alive a k && negb (Nat.eqb (adtor a k) 0) then avals a t k else 0) = pend s t k.
Proof.
  intros s a t k T HR. unfold pend.
  assert (NU : ~ (k < N /\ k_used (keys s k) = true) -> match data s t with
     | Some f => if e_used (f k) && negb (Nat.eqb (k_dtor (keys s k)) 0) then e_val (f k) else 0
     | None => 0 end = 0).
  { intros H. destruct (data s t) as [f|] eqn:Ed; [|reflexivity]. destruct (e_used (f k)) eqn:U; [|reflexivity].
    exfalso. apply H. apply (t_live N s a T k t). exists f. auto. }
  destruct (Nat.ltb_spec k N) as [L|L].
  - rewrite (t_alive N s a T k L). destruct (k_used (keys s k)) eqn:KU.
    + rewrite (t_dtor N s a T k L KU), (t_vals N s a T t k L KU HR). unfold val_of. cbn [andb].
      destruct (data s t) as [f|]; destruct (Nat.eqb (k_dtor (keys s k)) 0); cbn [negb]; try reflexivity.
      * now rewrite andb_false_r.
      * now rewrite andb_true_r.
    + cbn [andb]. symmetry. apply NU. intros [_ E]; discriminate.
  - cbn [andb]. symmetry. apply NU. lia.
Qed.

Lemma sim_end : forall s a t j, Sim s a -> st s t = Running ->
  exists s1 r a1, thread_end s t j = Ok s1 r /\ allowed N a (LEnd t j) r a1 /\ Sim s1 a1.
Proof.
  intros s a t j [T O] HR. destruct (end_tab s a t j T HR) as (s1 & r & E & R & T1).
  exists s1, r, (mkA (alive a) (adtor a) (avals a) (upd (owed a) t (pend s t))).
  split; [exact E|]. split.
  - apply a_end; auto.
    + intros k. symmetry. apply pend_vals; auto.
    + intros -> k. unfold thread_end in E. unfold pend. destruct (data s t); [discriminate|reflexivity].
  - split; [apply (Tab_ext N s1 a); auto|].
    intros t'. unfold thread_end in E. destruct (Nat.eq_dec t' t) as [->|D].
    + unfold owed_ok. destruct (data s t) as [f|] eqn:Ed; injection E as <- <-; cbn [st owed]; updc.
      * intros k. reflexivity.
      * intros k. unfold pend. now rewrite Ed.
    + apply (owed_frame s a); auto.
      * destruct (data s t); injection E as <- <-; cbn [st]; now updc.
      * destruct (data s t); injection E as <- <-; reflexivity.
      * intros k. cbn [owed]. now updc.
      * destruct (data s t); injection E as <- <-; reflexivity.
      * destruct (data s t); injection E as <- <-; auto.
Qed.

Lemma sim_scan : forall s a t att i c, Sim s a -> st s t = Scan att i c ->
  exists s1 r, scan N s t att i c = Ok s1 r /\ allowed N a (LScan t) r a /\ Sim s1 a.
Proof.
  intros s a t att i c [T O] HS. destruct (scan_tab s a t att i c T HS) as (s1 & r & E & R & T1).
  exists s1, r. split; [exact E|].
  pose proof (O t) as Ot. unfold owed_ok in Ot. rewrite HS in Ot.
  pose proof (t_end N s a T t) as TE. rewrite HS in TE. destruct TE as (Dn & Hi & Hu).
  assert (FR : forall t', t' <> t -> st s1 t' = st s t' -> data s1 t' = data s t' ->
    (forall k, k_used (keys s1 k) = k_used (keys s k) /\ k_dtor (keys s1 k) = k_dtor (keys s k)) -> owed_ok s1 a t').
  { intros t' D E1 E2 E3. apply (owed_frame s a); auto; intros; apply E3. }
  unfold scan in E. destruct (data s t) as [f|] eqn:Ed; [|discriminate].
  destruct (Nat.ltb_spec i N) as [L|L].
  - destruct (e_used (f i)) eqn:EU.
    + rewrite (list_ok_true N s a i T L) in E. cbn [negb] in E.
      assert (U : used_in s t i) by (exists f; auto). pose proof (t_live N s a T i t U) as [_ KU].
      assert (KK : forall l k, k_used (upd (keys s) i (mkKey (k_used (keys s i)) (k_dtor (keys s i)) l) k) = k_used (keys s k)
                   /\ k_dtor (upd (keys s) i (mkKey (k_used (keys s i)) (k_dtor (keys s i)) l) k) = k_dtor (keys s k)).
      { intros l k. destruct (Nat.eq_dec k i) as [->|D]; updc; auto. }
      destruct (negb (Nat.eqb (e_val (f i)) 0) && negb (Nat.eqb (k_dtor (keys s i)) 0)) eqn:C; injection E as <- <-.
      * split; [apply a_scan|]. split; [exact T1|]. intros t'. destruct (Nat.eq_dec t' t) as [->|D].
        -- apply andb_true_iff in C. destruct C as [C1 C2].
           apply negb_true_iff, Nat.eqb_neq in C1. apply negb_true_iff, Nat.eqb_neq in C2.
           assert (OI : owed a t i = e_val (f i)).
           { rewrite Ot. unfold pend. rewrite Ed, EU. apply Nat.eqb_neq in C2. now rewrite C2. }
           unfold owed_ok, pend. cbn [st data keys]. updc.
           destruct (KK (remove Nat.eq_dec t (k_thr (keys s i))) i) as [K1 K2]. updc.
           rewrite OI. split; [|split; [exact C1|split; [|split; [exact KU|exact C2]]]].
           ++ intros k D. rewrite Ot. unfold pend. rewrite Ed. updc. reflexivity.
           ++ eexists. split; [reflexivity|]. updc. auto.
        -- apply FR; auto; cbn [st data keys]; updc; auto.
      * split; [apply a_scan|]. split; [exact T1|]. intros t'. destruct (Nat.eq_dec t' t) as [->|D].
        -- unfold owed_ok, pend. cbn [st data keys]. updc. intros k. rewrite Ot. unfold pend. rewrite Ed.
           destruct (Nat.eq_dec k i) as [->|D]; updc; cbn [k_dtor e_used e_val andb]; [|reflexivity].
           rewrite EU. cbn [andb].
           destruct (Nat.eqb_spec (e_val (f i)) 0) as [Z|Z]; [rewrite Z; destruct (Nat.eqb (k_dtor (keys s i)) 0); reflexivity|].
           cbn [negb andb] in C. now rewrite C.
        -- apply FR; auto; cbn [st data keys]; updc; auto.
    + injection E as <- <-. split; [apply a_scan|]. split; [exact T1|]. intros t'.
      destruct (Nat.eq_dec t' t) as [->|D].
      * unfold owed_ok, pend, set_st. cbn [st data keys]. updc. exact Ot.
      * apply FR; auto; unfold set_st; cbn [st data keys]; now updc.
  - assert (NU : forall k, owed a t k = 0).
    { intros k. rewrite Ot. unfold pend. rewrite Ed. destruct (e_used (f k)) eqn:U; [|reflexivity].
      exfalso. assert (X : used_in s t k) by (exists f; auto).
      destruct (Hu k X) as [_ B]. apply (t_live N s a T) in X. lia. }
    destruct (c && Nat.ltb (S att) 4); injection E as <- <-.
    + split; [apply a_scan|]. split; [exact T1|]. intros t'.
      destruct (Nat.eq_dec t' t) as [->|D].
      * unfold owed_ok, pend, set_st. cbn [st data keys]. updc. exact Ot.
      * apply FR; auto; unfold set_st; cbn [st data keys]; now updc.
    + split; [apply a_gone; exact NU|]. split; [exact T1|]. intros t'.
      destruct (Nat.eq_dec t' t) as [->|D].
      * unfold owed_ok. cbn [st]. updc. exact NU.
      * apply FR; auto; cbn [st data keys]; now updc.
Qed.

Lemma sim_call : forall s a t att i, Sim s a -> st s t = Calling att i ->
  exists s1 r a1, call_dtor s t att i = Ok s1 r /\ allowed N a (LCall t) r a1 /\ Sim s1 a1.
Proof.
  intros s a t att i [T O] HS.
  pose proof (O t) as Ot. unfold owed_ok in Ot. rewrite HS in Ot.
  destruct Ot as (H1 & H2 & (f & Ef & Uf & Vf) & H4 & H5).
  pose proof (t_end N s a T t) as TE. rewrite HS in TE. destruct TE as (_ & Hi & _).
  assert (E : exists s1, call_dtor s t att i = Ok s1 (RCall i (k_dtor (keys s i)) (e_val (f i)))
    /\ st s1 = upd (st s) t (InDtor att i) /\ data s1 = data s /\ keys s1 = keys s).
  { unfold call_dtor. rewrite Ef. apply Nat.eqb_neq in H5. rewrite H5. eexists. split; [reflexivity|]. auto. }
  destruct E as (s1 & E & Es & Edd & Ek).
  exists s1, (RCall i (k_dtor (keys s i)) (e_val (f i))),
    (mkA (alive a) (adtor a) (avals a) (upd (owed a) t (upd (owed a t) i 0))).
  split; [exact E|]. split.
  - rewrite <- (t_dtor N s a T i Hi H4), Vf. apply a_call; auto.
    + split; [exact Hi|]. rewrite (t_alive N s a T i Hi). exact H4.
    + rewrite (t_dtor N s a T i Hi H4). exact H5.
  - split.
    + apply (Tab_ext N s1 a); auto. apply (call_tab s a t att i s1 _ T HS E).
    + intros t'. destruct (Nat.eq_dec t' t) as [->|D].
      * unfold owed_ok, pend. rewrite Es, Edd, Ek. updc. cbn [owed]. updc. intros k.
        destruct (Nat.eq_dec k i) as [->|D]; updc.
        -- now rewrite Ef, Uf.
        -- apply H1. exact D.
      * apply (owed_frame s a); auto.
        -- rewrite Es. now updc.
        -- now rewrite Edd.
        -- intros k. cbn [owed]. now updc.
        -- intros k _. now rewrite Ek.
        -- intros. now rewrite Ek.
Qed.

Lemma sim_back : forall s a t att i, Sim s a -> st s t = InDtor att i ->
  exists s1 r, back s t att i = Ok s1 r /\ allowed N a (LBack t) r a /\ Sim s1 a.
Proof.
  intros s a t att i [T O] HS. destruct (back_tab s a t att i T HS) as (s1 & E & T1).
  exists s1, RNone. split; [exact E|]. split; [apply a_back|]. split; [exact T1|].
  pose proof (O t) as Ot. unfold owed_ok in Ot. rewrite HS in Ot.
  pose proof (t_end N s a T t) as TE. rewrite HS in TE. destruct TE as (Dn & Hi & Hu).
  unfold back in E. destruct (data s t) as [f|] eqn:Ed; [|congruence].
  assert (NU : e_used (f i) = false).
  { destruct (e_used (f i)) eqn:U; [|reflexivity].
    assert (X : used_in s t i) by (exists f; auto). apply Hu in X. lia. }
  injection E as <-. intros t'. destruct (Nat.eq_dec t' t) as [->|D].
  - unfold owed_ok, pend. cbn [st data keys]. updc. intros k. rewrite Ot. unfold pend. rewrite Ed.
    destruct (Nat.eq_dec k i) as [->|D]; updc; [|reflexivity]. cbn [e_used]. now rewrite NU.
  - apply (owed_frame s a); auto; cbn [st data keys]; now updc.
Qed.

(* One polite step. *)
Lemma sim_step : forall s a l, Sim s a -> polite s l ->
  match step N junk s l with
  | Ok s1 r => exists a1, allowed N a l r a1 /\ Sim s1 a1
  | Undef => False
  | Stuck => True
  end.
Proof.
  intros s a l H P. destruct l as [d|k|t k v|t k|t j|t|t|t]; cbn [step].
  - destruct (key_create N s d) as [s1 r| |] eqn:E.
    + apply (sim_create s a d s1 r H E).
    + unfold key_create in E. destruct (find_free (keys s) 0 N); discriminate.
    + exact I.
  - destruct (sim_delete s a k H P) as (s1 & r & a1 & E & A & S1). rewrite E. eauto.
  - destruct (st s t) eqn:ES; auto.
    destruct (sim_set s a t k v H ES) as (s1 & r & a1 & E & A & S1). rewrite E. eauto.
  - destruct (st s t) eqn:ES; auto. exists a. split; [|exact H]. apply get_tab; [apply H|exact ES].
  - destruct (st s t) eqn:ES; auto. destruct (st s j); auto. destruct (Nat.eqb t j); auto.
    destruct (sim_end s a t j H ES) as (s1 & r & a1 & E & A & S1). rewrite E. eauto.
  - destruct (st s t) eqn:ES; auto.
    destruct (sim_scan s a t _ _ _ H ES) as (s1 & r & E & A & S1). rewrite E. eauto.
  - destruct (st s t) eqn:ES; auto.
    destruct (sim_call s a t _ _ H ES) as (s1 & r & a1 & E & A & S1). rewrite E. eauto.
  - destruct (st s t) eqn:ES; auto.
    destruct (sim_back s a t _ _ H ES) as (s1 & r & E & A & S1). rewrite E. eauto.
Qed.

(* Any step, polite or not, keeps the tables right. *)
Lemma tab_step : forall s a l s1 r, Tab s a -> step N junk s l = Ok s1 r ->
  exists a1, Tab s1 a1 /\ (if is_table_op l then allowed N a l r a1 else a1 = a).
Proof.
  intros s a l s1 r T E. destruct l as [d|k|t k v|t k|t j|t|t|t]; cbn [step is_table_op] in *.
  - destruct (create_tab N s a d s1 r T E) as (a1 & A & T1). eauto.
  - destruct (delete_tab N s a k T) as (s2 & r2 & a1 & E2 & A & T1). rewrite E in E2. injection E2 as <- <-. eauto.
  - destruct (st s t) eqn:ES; try discriminate.
    destruct (set_tab N junk s a t k v T ES) as (s2 & r2 & a1 & E2 & A & T1). rewrite E in E2. injection E2 as <- <-. eauto.
  - destruct (st s t) eqn:ES; try discriminate. injection E as <- <-. exists a. split; [exact T|]. apply get_tab; auto.
  - destruct (st s t) eqn:ES; try discriminate. destruct (st s j); try discriminate. destruct (Nat.eqb t j); try discriminate.
    destruct (end_tab s a t j T ES) as (s2 & r2 & E2 & _ & T1). rewrite E in E2. injection E2 as <- <-. eauto.
  - destruct (st s t) eqn:ES; try discriminate.
    destruct (scan_tab s a t _ _ _ T ES) as (s2 & r2 & E2 & _ & T1). rewrite E in E2. injection E2 as <- <-. eauto.
  - destruct (st s t) eqn:ES; try discriminate. exists a. split; [|reflexivity].
    apply (call_tab s a t _ _ s1 r T ES E).
  - destruct (st s t) eqn:ES; try discriminate.
    destruct (back_tab s a t _ _ T ES) as (s2 & E2 & T1). rewrite E in E2. injection E2 as <- ->. eauto.
Qed.

Lemma sim_init : Sim init ainit.
Proof. split; [apply init_tab|]. intros t. exact I. Qed.

Lemma sim_run : forall s tr s2, prun N junk s tr s2 -> forall a, Sim s a ->
  exists a2, accepts N a tr a2 /\ Sim s2 a2.
Proof.
  induction 1 as [s|s l r s1 tr s2 P E R IH]; intros a H.
  - exists a. split; [constructor|exact H].
  - pose proof (sim_step s a l H P) as S1. rewrite E in S1. destruct S1 as (a1 & A & S1).
    destruct (IH a1 S1) as (a2 & A2 & S2). exists a2. split; [econstructor; eauto|exact S2].
Qed.

Lemma tab_run : forall s tr s2, run N junk s tr s2 -> forall a, Tab s a ->
  exists a2, accepts_tab N a tr a2 /\ Tab s2 a2.
Proof.
  induction 1 as [s|s l r s1 tr s2 E R IH]; intros a H.
  - exists a. split; [constructor|exact H].
  - destruct (tab_step s a l s1 r H E) as (a1 & T1 & A).
    destruct (IH a1 T1) as (a2 & A2 & S2). exists a2. split; [|exact S2].
    destruct (is_table_op l) eqn:Q; [eapply at_op; eauto|]. subst a1. apply at_skip; auto.
Qed.

(* The thread that runs a destructor is never the one it is run for. *)
Definition runner_ok (s : state) : Prop :=
  (forall t, st s t <> Running -> by_ s t <> t) /\
  Forall (fun c => c_by c <> c_for c) (calls s).

Lemma runner_step : forall s l s1 r, runner_ok s -> step N junk s l = Ok s1 r -> runner_ok s1.
Proof.
  intros s l s1 r [H1 H2] E. destruct l as [d|k|t k v|t k|t j|t|t|t]; cbn [step] in E.
  - unfold key_create in E. destruct (find_free _ _ _); injection E as <- <-; split; auto.
  - unfold key_delete in E. destruct (_ || _); [injection E as <- <-; split; auto|].
    destruct (negb _); [discriminate|]. injection E as <- <-; split; auto.
  - destruct (st s t); try discriminate. unfold setspecific in E. destruct (_ || _); [injection E as <- <-; split; auto|].
    destruct (e_used _); [injection E as <- <-; split; auto|].
    destruct (negb _); [discriminate|]. injection E as <- <-; split; auto.
  - destruct (st s t); try discriminate. injection E as <- <-; split; auto.
  - destruct (st s t); try discriminate. destruct (st s j); try discriminate.
    destruct (Nat.eqb_spec t j) as [|D]; [discriminate|]. unfold thread_end in E.
    destruct (data s t); injection E as <- <-; (split; [|exact H2]); cbn [st by_]; intros t' HR;
      (destruct (Nat.eq_dec t' t) as [->|D']; updc; auto).
  - destruct (st s t) eqn:ES; try discriminate. assert (NR : by_ s t <> t) by (apply H1; congruence).
    unfold scan in E. destruct (data s t); [|discriminate].
    destruct (Nat.ltb _ _).
    + destruct (e_used _).
      * destruct (negb (list_ok _ _)); [discriminate|].
        destruct (_ && _); injection E as <- <-; (split; [|exact H2]); cbn [st by_]; intros t' HR;
          (destruct (Nat.eq_dec t' t) as [->|D']; updc; auto).
      * injection E as <- <-; (split; [|exact H2]); unfold set_st; cbn [st by_]; intros t' HR;
          (destruct (Nat.eq_dec t' t) as [->|D']; updc; auto).
    + destruct (_ && _); injection E as <- <-; (split; [|exact H2]); unfold set_st; cbn [st by_]; intros t' HR;
          (destruct (Nat.eq_dec t' t) as [->|D']; updc; auto).
  - destruct (st s t) eqn:ES; try discriminate. assert (NR : by_ s t <> t) by (apply H1; congruence).
    unfold call_dtor in E. destruct (data s t); [|discriminate]. destruct (Nat.eqb _ 0); [discriminate|].
    injection E as <- <-. split; cbn [st by_ calls].
    + intros t' HR. destruct (Nat.eq_dec t' t) as [->|D']; updc; auto.
    + constructor; [exact NR|exact H2].
  - destruct (st s t) eqn:ES; try discriminate. assert (NR : by_ s t <> t) by (apply H1; congruence).
    unfold back in E. destruct (data s t); [|discriminate].
    injection E as <- <-. split; [|exact H2]; cbn [st by_].
    intros t' HR. destruct (Nat.eq_dec t' t) as [->|D']; updc; auto.
Qed.

Lemma runner_run : forall s tr s2, run N junk s tr s2 -> runner_ok s -> runner_ok s2.
Proof. induction 1; intros R; auto. apply IHrun. eapply runner_step; eauto. Qed.
End Code.
