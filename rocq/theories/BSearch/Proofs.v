From Coq Require Import List Arith ZArith Lia ZifyBool ZifyNat Bool.
From Verif.BSearch Require Import Model Spec.
Import ListNotations.
Ltac Zify.zify_post_hook ::= Z.div_mod_to_equations.

Section P.
  Context {K E : Type} (lt : K -> K -> bool) (getKey : E -> K).

  (** The loop with an arbitrary "go right" predicate. *)
  Fixpoint part_loop (go : E -> bool) (fuel : nat) (vals : list E) (l h : nat) : res nat :=
    match fuel with
    | O => Fuel
    | S f => if Nat.ltb l h then
               let m := (l + h) / 2 in
               match nth_error vals m with
               | None => OOB
               | Some v => if go v then part_loop go f vals (m + 1) h else part_loop go f vals l m
               end
             else Ok l
    end.
  Lemma lower_part key : forall f vals l h,
    lower_loop lt getKey f key vals l h = part_loop (fun v => lt (getKey v) key) f vals l h.
  Proof.
    induction f as [|f IH]; intros; cbn [lower_loop upper_loop part_loop]; auto. destruct (Nat.ltb l h); auto.
    cbv zeta. destruct (nth_error vals _); auto. destruct (lt _ _); apply IH.
  Qed.
  Lemma upper_part key : forall f vals l h,
    upper_loop lt getKey f key vals l h = part_loop (fun v => negb (lt key (getKey v))) f vals l h.
  Proof.
    induction f as [|f IH]; intros; cbn [lower_loop upper_loop part_loop]; auto. destruct (Nat.ltb l h); auto.
    cbv zeta. destruct (nth_error vals _); auto. destruct (lt _ _); apply IH.
  Qed.

  Definition mono (go : E -> bool) (vals : list E) : Prop :=
    forall i j a b, i < j -> nth_error vals i = Some a -> nth_error vals j = Some b -> go b = true -> go a = true.

  Lemma part_loop_ok go vals : mono go vals -> forall fuel l h,
    h - l < fuel -> l <= h -> h <= length vals ->
    (forall i v, i < l -> nth_error vals i = Some v -> go v = true) ->
    (forall i v, h <= i -> nth_error vals i = Some v -> go v = false) ->
    exists p, part_loop go fuel vals l h = Ok p /\ p <= length vals /\
      (forall i v, i < p -> nth_error vals i = Some v -> go v = true) /\
      (forall i v, p <= i -> nth_error vals i = Some v -> go v = false).
  Proof.
    intros Hm. induction fuel as [|f IH]; intros l h Hf Hlh Hh Hlo Hhi; [lia|]. cbn [part_loop].
    destruct (Nat.ltb_spec l h) as [Hlt|Hge].
    - assert (Hmid : l <= (l + h) / 2 < h) by lia. set (m := (l + h) / 2) in *.
      destruct (nth_error vals m) as [v|] eqn:Em; [|apply nth_error_None in Em; lia].
      destruct (go v) eqn:Eg.
      + apply IH; auto; try lia. intros i x Hi Hx. destruct (Nat.eq_dec i m) as [->|Hne]; [congruence|].
        apply (Hm i m x v); auto; lia.
      + apply IH; auto; try lia. intros i x Hi Hx. destruct (Nat.eq_dec i m) as [->|Hne]; [congruence|].
        destruct (go x) eqn:Ex; auto. assert (go v = true) by (apply (Hm m i v x); auto; lia). congruence.
    - exists l. repeat split; auto; try lia. intros i v Hi. apply Hhi. lia.
  Qed.

  Hypothesis SW : strict_weak lt.

  Lemma lower_mono key vals : ascending lt getKey vals -> mono (fun v => lt (getKey v) key) vals.
  Proof.
    intros Ha i j a b Hij Hi Hj Hb. destruct SW as (_ & _ & Hn).
    destruct (Hn (getKey b) (getKey a) key Hb) as [H|H]; [|exact H]. rewrite (Ha i j a b Hij Hi Hj) in H. discriminate.
  Qed.
  Lemma upper_mono key vals : ascending lt getKey vals -> mono (fun v => negb (lt key (getKey v))) vals.
  Proof.
    intros Ha i j a b Hij Hi Hj Hb. destruct SW as (_ & _ & Hn).
    apply negb_true_iff in Hb. apply negb_true_iff. destruct (lt key (getKey a)) eqn:E1; auto.
    destruct (Hn key (getKey b) (getKey a) E1) as [H|H]; [congruence|].
    rewrite (Ha i j a b Hij Hi Hj) in H. discriminate.
  Qed.

  Lemma bsearchl_ok key vals : ascending lt getKey vals ->
    exists p, bsearchl lt getKey key vals (length vals) = Ok p /\ p <= length vals /\
      (forall i v, i < p -> nth_error vals i = Some v -> lt (getKey v) key = true) /\
      (forall i v, p <= i -> nth_error vals i = Some v -> lt (getKey v) key = false).
  Proof.
    intros Ha. unfold bsearchl. rewrite lower_part. apply part_loop_ok; try lia.
    - now apply lower_mono.
    - intros i v Hi Hv. assert (nth_error vals i <> None) by congruence. apply nth_error_Some in H. lia.
  Qed.

  Lemma bsearchu_ok key vals : ascending lt getKey vals ->
    exists p, bsearchu lt getKey key vals (length vals) = Ok p /\ p <= length vals /\
      (forall i v, i < p -> nth_error vals i = Some v -> lt key (getKey v) = false) /\
      (forall i v, p <= i -> nth_error vals i = Some v -> lt key (getKey v) = true).
  Proof.
    intros Ha. unfold bsearchu. rewrite upper_part.
    destruct (part_loop_ok (fun v => negb (lt key (getKey v))) vals) with (fuel := S (length vals)) (l := 0) (h := length vals)
      as (p & H1 & H2 & H3 & H4); try lia.
    - now apply upper_mono.
    - intros i v Hi Hv. assert (nth_error vals i <> None) by congruence. apply nth_error_Some in H. lia.
    - exists p. repeat split; auto; intros i v Hi Hv.
      + apply negb_true_iff. eauto.
      + apply negb_false_iff. eauto.
  Qed.

  Lemma cmp_zero key v : cmp lt getKey key v = 0%Z <-> lt key (getKey v) = false /\ lt (getKey v) key = false.
  Proof. unfold cmp. destruct (lt key (getKey v)), (lt (getKey v) key); intuition discriminate. Qed.

  Lemma bsearch_ok cb key vals : c_bsearch_contract cb -> ascending lt getKey vals ->
    let r := bsearch lt getKey cb key vals (length vals) in
    (r < length vals /\ exists v, nth_error vals r = Some v /\ lt key (getKey v) = false /\ lt (getKey v) key = false)
    \/ (r = length vals /\ forall v, In v vals -> lt key (getKey v) = true \/ lt (getKey v) key = true).
  Proof.
    intros Hc Ha r. unfold r, bsearch. rewrite firstn_all.
    specialize (Hc (cmp lt getKey key) vals). destruct SW as (Hi & Ht & Hn).
    destruct (cb (cmp lt getKey key) vals) as [i|].
    - left. destruct Hc as (v & Hv & Hz); [|apply cmp_zero in Hz as [H1 H2]].
      + intros a b x y Hab Hx Hy. assert (Hs := Ha a b x y Hab Hx Hy). unfold cmp. split.
        * destruct (lt key (getKey x)) eqn:E1; intros H.
          -- destruct (Hn key (getKey y) (getKey x) E1) as [->|]; [lia|congruence].
          -- destruct (lt (getKey x) key) eqn:E2; lia.
        * destruct (lt key (getKey x)) eqn:E1; intros H; [lia|].
          destruct (lt (getKey x) key) eqn:E2; [lia|].
          destruct (lt key (getKey y)) eqn:E3; [lia|]. destruct (lt (getKey y) key) eqn:E4; [|lia].
          destruct (Hn (getKey y) (getKey x) key E4); congruence.
      + split; [|eauto]. apply nth_error_Some. congruence.
    - right. split; auto. intros v Hin. destruct (lt key (getKey v)) eqn:E1; auto.
      destruct (lt (getKey v) key) eqn:E2; auto. exfalso. revert v Hin E1 E2.
      assert (Hp : forall i j a b, i < j -> nth_error vals i = Some a -> nth_error vals j = Some b ->
       (cmp lt getKey key a < 0 -> cmp lt getKey key b < 0)%Z /\ (cmp lt getKey key a = 0 -> cmp lt getKey key b <= 0)%Z).
      { intros a b x y Hab Hx Hy. assert (Hs := Ha a b x y Hab Hx Hy). unfold cmp. split.
        * destruct (lt key (getKey x)) eqn:E1; intros H.
          -- destruct (Hn key (getKey y) (getKey x) E1) as [->|]; [lia|congruence].
          -- destruct (lt (getKey x) key) eqn:E2; lia.
        * destruct (lt key (getKey x)) eqn:E1; intros H; [lia|].
          destruct (lt (getKey x) key) eqn:E2; [lia|].
          destruct (lt key (getKey y)) eqn:E3; [lia|]. destruct (lt (getKey y) key) eqn:E4; [|lia].
          destruct (Hn (getKey y) (getKey x) key E4); congruence. }
      intros v Hin E1 E2. apply (Hc Hp v Hin). apply cmp_zero; auto.
  Qed.
End P.
