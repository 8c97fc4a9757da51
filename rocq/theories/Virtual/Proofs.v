From Coq Require Import List Bool Arith Lia.
From Verif.Virtual Require Import Model Spec.
Import ListNotations.
Lemma anc_nz w p c : ancestor w p c -> p <> 0 /\ c <> 0. Proof. intros H. induction H; tauto. Qed.
Lemma walk_sound w p : forall f c b, c <> 0 -> walk f w p c = Ok b -> (b = true <-> ancestor w p c).
Proof.
  induction f as [|f IH]; intros c b Hc H; [discriminate|]. cbn [walk] in H. destruct (Nat.eqb_spec p c) as [->|N].
  - assert (b = true) by congruence. subst. split; [intros _; constructor; exact Hc|reflexivity].
  - destruct (Nat.eqb_spec (w c) 0) as [E|E].
    + assert (b = false) by congruence. subst. split; [discriminate|]. intros A. inversion A; subst; [congruence|]. rewrite E in *. match goal with H : ancestor _ _ 0 |- _ => apply anc_nz in H; destruct H; congruence end.
    + rewrite (IH _ _ E H). split; [intros A; constructor 2; assumption|]. intros A. inversion A; subst; [congruence|assumption].
Qed.
Lemma walk_total w p : forall n c f, depth w n c -> c <> 0 -> n <= f -> exists b, walk f w p c = Ok b.
Proof.
  induction n as [|n IH]; intros c f H Hc Hf; inversion H; subst; [congruence|]. destruct f as [|f]; [lia|]. cbn [walk]. destruct (p =? c); [eauto|].
  destruct (Nat.eqb_spec (w c) 0) as [|E]; [eauto|]. apply IH; [assumption|exact E|lia].
Qed.
Lemma anc_trans w p q c : ancestor w p q -> ancestor w q c -> ancestor w p c.
Proof. intros H1 H2. induction H2; [exact H1|]. constructor 2; assumption. Qed.
Lemma depth_fun w c : forall n m, depth w n c -> depth w m c -> n = m.
Proof. intros n m H. revert m. induction H as [|c n Hc H IH]; intros m K; inversion K; subst; try congruence. f_equal. apply IH. assumption. Qed.
Lemma anc_depth w p c : forall n, ancestor w p c -> depth w n c -> exists m, depth w m p /\ m <= n /\ (m = n -> p = c).
Proof.
  intros n H. revert n. induction H as [H|c Hc H IH]; intros n D; [exists n; auto|]. inversion D; subst; [congruence|]. destruct (IH _ ltac:(eassumption)) as [m [A [B C]]]. exists m. split; [exact A|]. split; [lia|]. lia.
Qed.
Lemma anc_total w p q c : ancestor w p c -> ancestor w q c -> ancestor w p q \/ ancestor w q p.
Proof.
  intros H. revert q. induction H as [H|c Hc H IH]; intros q K; [right; exact K|]. inversion K; subst; [left; constructor 2; assumption|]. apply IH. assumption.
Qed.
(** an endless chain *)
Lemma walk_more w p : forall f c, (forall n, ~ depth w n c) -> ~ ancestor w p c -> c <> 0 -> walk f w p c = More.
Proof.
  induction f as [|f IH]; intros c D A Hc; [reflexivity|]. cbn [walk]. destruct (Nat.eqb_spec p c) as [->|N]; [exfalso; apply A; constructor; exact Hc|].
  destruct (Nat.eqb_spec (w c) 0) as [E|E]; [exfalso; apply (D 1); constructor; [exact Hc|rewrite E; constructor]|].
  apply IH; [|intros K; apply A; constructor 2; assumption|exact E]. intros n K. apply (D (S n)). constructor; assumption.
Qed.
Lemma lookup_set k d t x : lookup x (set k d t) = if x =? k then Some d else lookup x t.
Proof.
  induction t as [|[y e] t IH]; cbn [set lookup]; [reflexivity|]. destruct (Nat.eqb_spec k y) as [->|N]; cbn [lookup].
  - destruct (Nat.eqb_spec x y); reflexivity.
  - rewrite IH. destruct (Nat.eqb_spec x y) as [->|]; [|reflexivity]. destruct (Nat.eqb_spec y k); [congruence|reflexivity].
Qed.
(** what is to be chosen after a table that holds v *)
Definition after (v : option decl) (k : nat) (l : list (nat * decl)) : option decl :=
  match v with
  | Some (n, false) => Some (n, false)
  | Some e => match first (fun d => negb (snd d)) k l with Some d => Some d | None => Some e end
  | None => chosen k l
  end.
Lemma inserts_after k : forall l t, lookup k (inserts l t) = after (lookup k t) k l.
Proof.
  induction l as [|[x d] l IH]; intros t; cbn [inserts].
  - destruct (lookup k t) as [[n [|]]|]; reflexivity.
  - rewrite IH. unfold insert. destruct (Nat.eqb_spec k x) as [->|N].
    + destruct d as [m b]. destruct (lookup x t) as [[n e]|] eqn:E; cbn [snd].
      * destruct b; cbn [snd]; [rewrite E; unfold after, first; cbn [find fst snd]; rewrite Nat.eqb_refl; cbn [andb negb]; reflexivity|].
        destruct e; cbn [negb snd]; [rewrite lookup_set, Nat.eqb_refl; unfold after, first; cbn [find fst snd]; rewrite Nat.eqb_refl; reflexivity|rewrite E; reflexivity].
      * rewrite lookup_set, Nat.eqb_refl. unfold after, chosen, first. cbn [find fst snd]. rewrite Nat.eqb_refl. cbn [andb]. destruct b; cbn [negb]; reflexivity.
    + assert (Hl : lookup k (snd (match lookup x t with None => (None, set x d t) | Some v => if snd d then (None, t) else if negb (snd v) then (Some v, t) else (None, set x d t) end)) = lookup k t).
      { assert (H : lookup k (set x d t) = lookup k t) by (rewrite lookup_set; destruct (Nat.eqb_spec k x); [congruence|reflexivity]).
        destruct (lookup x t) as [v|]; [|exact H]. destruct (snd d); [reflexivity|]. destruct (negb (snd v)); [reflexivity|exact H]. }
      rewrite Hl. unfold after, chosen, first. cbn [find fst snd]. destruct (Nat.eqb_spec k x); [congruence|]. reflexivity.
Qed.
