From Coq Require Import List Bool Arith Lia.
From Verif.LockFree Require Import Spec StackModel.
Import ListNotations.
Ltac sf := cbn [top cnt ntop ncnt use pcs lg setp seen] in *.
Lemma upd_same : forall A (f : nat -> A) i x, upd f i x i = x.
Proof. intros. unfold upd. now rewrite Nat.eqb_refl. Qed.
Lemma upd_other : forall A (f : nat -> A) i j x, j <> i -> upd f i x j = f j.
Proof. intros A f i j x N. unfold upd. destruct (Nat.eqb_spec j i); [contradiction|reflexivity]. Qed.
Lemma oeqb_eq : forall a b, oeqb a b = true -> a = b.
Proof. intros [x|] [y|]; cbn; intros H; try discriminate; auto. apply Nat.eqb_eq in H. now subst. Qed.

Fixpoint chain (nt : nat -> option nat) (o : option nat) (l : list nat) : Prop :=
  match l with [] => o = None | a :: r => o = Some a /\ chain nt (nt a) r end.
Definition pushing (k : pc) : option nat :=
  match k with Push n _ _ | PushT n _ _ | PushN n _ _ | PushF n _ _ | PushG n _ | PushC n => Some n | _ => None end.
Definition pcok (c : nat) (nt : nat -> option nat) (l : list nat) (k : pc) : Prop :=
  match k with
  | PopN y | Pop1 _ y => y <= c
  | PopC x y nx => y <= c /\ (c = y -> In x l -> nx = nt x)
  | _ => True
  end.
Definition InvL (s : st) (l : list nat) : Prop :=
  runs (map snd (lg s)) l /\ NoDup l /\ chain (ntop s) (top s) l /\ (forall t, pcok (cnt s) (ntop s) l (pcs s t)) /\
  (forall n, use s n = true <-> In n l \/ exists t, pushing (pcs s t) = Some n) /\
  (forall t n, pushing (pcs s t) = Some n -> ~ In n l) /\
  (forall t u n, pushing (pcs s t) = Some n -> pushing (pcs s u) = Some n -> t = u).
Lemma chain_ext : forall nt nt' l o, chain nt o l -> (forall x, In x l -> nt' x = nt x) -> chain nt' o l.
Proof. induction l as [|a l IH]; intros o C E; [exact C|]. destruct C as [C R]. split; [exact C|]. rewrite E by (now left). apply IH; auto using in_cons. Qed.

(** A step that leaves the stack word, and writes at most the link of the node its thread is pushing. *)
Lemma frame : forall s l t k nt nc L, InvL s l -> pcok (cnt s) nt l k ->
  pushing k = pushing (pcs s t) -> (forall x, In x l -> nt x = ntop s x) -> runs (map snd L) l ->
  InvL (S_ (top s) (cnt s) nt nc (use s) (upd (pcs s) t k) L) l.
Proof.
  intros s l t k nt nc L (R & ND & C & P & U & O & X) K PK E R'.
  assert (PE : forall u, pushing (upd (pcs s) t k u) = pushing (pcs s u)) by (intros u; unfold upd; destruct (Nat.eqb_spec u t) as [E0|N]; [subst u; exact PK|reflexivity]).
  split; [exact R'|]. split; [exact ND|]. split; [sf; eapply chain_ext; eauto|]. split; [|split; [|split]]; sf.
  - intros u. unfold upd. destruct (Nat.eqb_spec u t) as [E0|N]; [exact K|]. specialize (P u). destruct (pcs s u); cbn in *; auto. destruct P as [P1 P2]. split; [exact P1|]. intros A B. rewrite E by exact B. auto.
  - intros n. rewrite U. split; intros [A|[u A]]; auto; right; exists u; [now rewrite PE|now rewrite PE in A].
  - intros u n. rewrite PE. apply O.
  - intros u v n. rewrite !PE. apply X.
Qed.
Lemma step_inv : forall s l t a s', InvL s l -> step s t a = Some s' ->
  (lg s' = lg s /\ InvL s' l) \/ exists e l', lg s' = lg s ++ [(t, e)] /\ InvL s' l'.
Proof.
  intros s l t a s' I H. assert (I' := I). destruct I' as (R & ND & C & P & U & O & X). unfold step in H. specialize (P t) as PT.
  assert (SE : forall x k, x = top s -> pcok (cnt s) (ntop s) l k -> pushing k = pushing (pcs s t) -> (lg (seen s t x k) = lg s /\ InvL (seen s t x k) l) \/ exists e l', lg (seen s t x k) = lg s ++ [(t, e)] /\ InvL (seen s t x k) l').
  { intros x k -> Q PK. destruct (top s) as [z|] eqn:T.
    - left. split; [reflexivity|]. unfold seen in *. apply frame; auto.
    - right. exists (EPop None), l. split; [reflexivity|]. unfold seen in *. apply frame; auto. rewrite map_app. cbn. destruct l as [|b l]; [now apply rempty|]. destruct C as [C _]. congruence. }
  destruct (pcs s t) as [|n dt dn|n dn x|n dt y|n x y|n y|n| |x|y|x y|x y nx] eqn:K; destruct a as [m| |c]; try discriminate.
  - destruct (use s m) eqn:UM; inversion H; subst; clear H. left. split; [reflexivity|].
    assert (NM : ~ In m l) by (intros A; assert (use s m = true) by (apply U; now left); congruence).
    assert (NP : forall u, pushing (pcs s u) <> Some m) by (intros u A; assert (use s m = true) by (apply U; eauto); congruence).
    split; [exact R|]. split; [exact ND|]. split; [exact C|]. split; [|split; [|split]]; sf.
    + intros u. unfold upd. destruct (Nat.eqb_spec u t); [exact Logic.I|]. specialize (P u). destruct (pcs s u); exact P.
    + intros n. split.
      * intros A. destruct (Nat.eq_dec n m) as [->|N]; [right; exists t; now rewrite upd_same|]. rewrite upd_other in A by exact N. apply U in A. destruct A as [A|[u A]]; [auto|].
        right. exists u. rewrite upd_other; [exact A|]. intros ->. rewrite K in A. discriminate.
      * intros A. destruct (Nat.eq_dec n m) as [->|N]; [apply upd_same|]. rewrite upd_other by exact N. apply U. destruct A as [A|[u A]]; [auto|]. right. exists u.
        unfold upd in A. destruct (Nat.eqb_spec u t); [cbn in A; congruence|exact A].
    + intros u n. unfold upd. destruct (Nat.eqb_spec u t); [cbn; congruence|apply O].
    + intros u v n. unfold upd. destruct (Nat.eqb_spec u t), (Nat.eqb_spec v t); cbn; intros A B; subst; auto; [exfalso; eapply NP; inversion A; subst; eauto|exfalso; eapply NP; inversion B; subst; eauto|eapply X; eauto].
  - inversion H; subst. left. split; [reflexivity|]. apply frame; auto; try exact Logic.I; now rewrite K.
  - destruct (dt && dn); [|destruct ((c || dn) && negb dt)]; inversion H; subst; left; (split; [reflexivity|]); (apply frame; auto; try exact Logic.I; now rewrite K).
  - inversion H; subst. left. split; [reflexivity|]. apply frame; auto; try exact Logic.I; try now rewrite K. intros z Z. rewrite upd_other; [reflexivity|]. intros ->. eapply O; [rewrite K; reflexivity|exact Z].
  - inversion H; subst. left. split; [reflexivity|]. apply frame; auto; try exact Logic.I; now rewrite K.
  - inversion H; subst. left. split; [reflexivity|]. apply frame; auto; try exact Logic.I; try now rewrite K. intros z Z. rewrite upd_other; [reflexivity|]. intros ->. eapply O; [rewrite K; reflexivity|exact Z].
  - inversion H; subst. left. split; [reflexivity|]. apply frame; auto; try exact Logic.I; now rewrite K.
  - (* push compare-and-swap *) destruct (oeqb (top s) (ntop s n) && (cnt s =? ncnt s n)) eqn:Q; inversion H; subst; clear H.
    + apply andb_true_iff in Q. destruct Q as [Q1 Q2]. apply oeqb_eq in Q1. apply Nat.eqb_eq in Q2. assert (NL : ~ In n l) by (eapply O; now rewrite K).
      assert (UN : forall u, u <> t -> pushing (pcs s u) <> Some n) by (intros u N A; apply N; eapply X; [exact A|now rewrite K]).
      right. exists (EPush n), (n :: l). split; [reflexivity|]. split; [sf; rewrite map_app; now apply rpush|]. split; [now constructor|]. split; [split; [reflexivity|]; sf; now rewrite <- Q1|]. split; [|split; [|split]]; sf.
      * intros u. unfold upd. destruct (Nat.eqb_spec u t); [exact Logic.I|]. specialize (P u). destruct (pcs s u); cbn [pcok] in *; auto; lia.
      * intros m. rewrite U. split.
        -- intros [A|[u A]]; [left; now right|]. destruct (Nat.eq_dec u t) as [->|N]; [left; left; rewrite K in A; cbn in A; congruence|]. right. exists u. now rewrite upd_other.
        -- intros [[A|A]|[u A]]; [right; exists t; rewrite K; cbn; congruence|now left|]. destruct (Nat.eq_dec u t) as [->|N]; [rewrite upd_same in A; discriminate|]. rewrite upd_other in A by exact N. eauto.
      * intros u m A. destruct (Nat.eq_dec u t) as [->|N]; [rewrite upd_same in A; discriminate|]. rewrite upd_other in A by exact N. intros [B|B]; [subst m; eapply UN; eauto|eapply O; eauto].
      * intros u v m A B. destruct (Nat.eq_dec u t) as [->|N]; [rewrite upd_same in A; discriminate|]. destruct (Nat.eq_dec v t) as [->|N2]; [rewrite upd_same in B; discriminate|]. rewrite upd_other in A, B by assumption. eapply X; eauto.
    + left. split; [reflexivity|]. apply frame; auto; try exact Logic.I; now rewrite K.
  - destruct c; inversion H; subst; clear H; [apply SE; auto; try exact Logic.I; now rewrite K|]. left. split; [reflexivity|]. apply frame; auto; try (now rewrite K); try (cbn; lia).
  - inversion H; subst. left. split; [reflexivity|]. apply frame; auto; try (now rewrite K); try (cbn; lia).
  - inversion H; subst. apply SE; auto; now rewrite K.
  - destruct x as [n|]; inversion H; subst; left; (split; [reflexivity|]); (apply frame; cbn; auto; try now rewrite K).
  - (* pop compare-and-swap *) destruct (oeqb (top s) (Some x) && (cnt s =? y)) eqn:Q; inversion H; subst; clear H; [|apply SE; auto; try (now rewrite K); try (cbn; lia)].
    apply andb_true_iff in Q. destruct Q as [Q1 Q2]. apply oeqb_eq in Q1. apply Nat.eqb_eq in Q2. cbn in PT. destruct PT as [_ PT].
    destruct l as [|b l]; [cbn in C; congruence|]. destruct C as [C1 C2]. assert (b = x) by congruence. subst b.
    specialize (PT Q2 (or_introl eq_refl)). subst nx. inversion ND; subst.
    right. exists (EPop (Some x)), l. split; [reflexivity|]. split; [sf; rewrite map_app; now apply rpop|]. split; [assumption|]. split; [exact C2|]. split; [|split; [|split]]; sf.
    + intros u. unfold upd. destruct (Nat.eqb_spec u t); [exact Logic.I|]. specialize (P u). destruct (pcs s u); cbn [pcok] in *; auto. destruct P as [P1 P2]. split; [exact P1|]. intros A B. apply P2; [exact A|now right].
    + intros m. destruct (Nat.eq_dec m x) as [->|N].
      * rewrite upd_same. split; [discriminate|]. intros [A|[u A]]; [contradiction|]. exfalso. destruct (Nat.eq_dec u t) as [->|N]; [rewrite upd_same in A; discriminate|]. rewrite upd_other in A by exact N. eapply O; [exact A|now left].
      * rewrite upd_other by exact N. rewrite U. split.
        -- intros [[A|A]|[u A]]; [congruence|now left|]. right. exists u. rewrite upd_other; [exact A|]. intros ->. rewrite K in A. discriminate.
        -- intros [A|[u A]]; [left; now right|]. right. exists u. destruct (Nat.eq_dec u t) as [->|N2]; [rewrite upd_same in A; discriminate|]. now rewrite upd_other in A.
    + intros u m A B. destruct (Nat.eq_dec u t) as [->|N]; [rewrite upd_same in A; discriminate|]. rewrite upd_other in A by exact N. eapply O; [exact A|now right].
    + intros u v m A B. destruct (Nat.eq_dec u t) as [->|N]; [rewrite upd_same in A; discriminate|]. destruct (Nat.eq_dec v t) as [->|N2]; [rewrite upd_same in B; discriminate|]. rewrite upd_other in A, B by assumption. eapply X; eauto.
Qed.
Lemma reach_inv : forall s, reach s -> exists l, InvL s l.
Proof.
  intros s H. induction H as [|s t a s' H [l I] S].
  - exists []. split; [constructor|]. split; [constructor|]. split; [reflexivity|]. split; [intros; exact Logic.I|]. split; [|split; [discriminate|discriminate]].
    intros n. split; [discriminate|]. intros [A|[t A]]; [destruct A|discriminate].
  - destruct (step_inv s l t a s' I S) as [[_ I']|(e & l' & _ & I')]; eauto.
Qed.
(** The last operation a thread put in the log. *)
Fixpoint last_of (t : nat) (l : list (nat * ev)) : option ev :=
  match l with [] => None | (u, e) :: r => match last_of t r with Some x => Some x | None => if u =? t then Some e else None end end.
Lemma last_of_app : forall t l u e, last_of t (l ++ [(u, e)]) = if u =? t then Some e else last_of t l.
Proof.
  induction l as [|[v f] l IH]; intros u e; cbn; [reflexivity|]. rewrite IH. destruct (u =? t); [reflexivity|]. reflexivity.
Qed.
(** how many operations a thread logged *)
Definition ops_of (t : nat) (l : list (nat * ev)) : nat := length (filter (fun p => fst p =? t) l).
Lemma ops_app : forall t l u e, ops_of t (l ++ [(u, e)]) = ops_of t l + (if u =? t then 1 else 0).
Proof. intros. unfold ops_of. rewrite filter_app, app_length. cbn. now destruct (u =? t). Qed.
