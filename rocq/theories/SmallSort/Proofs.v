From Coq Require Import ZArith List Lia Bool Sorting.Permutation Sorting.Sorted.
From Verif.SmallSort Require Import Model.
Import ListNotations.
Open Scope Z_scope.

Lemma set_len arr i v arr' : set arr i v = Some arr' -> length arr' = length arr.
Proof.
  revert i arr'; induction arr as [|x r IH]; intros [|i] arr' H; cbn in H; try discriminate.
  - injection H as <-; reflexivity.
  - destruct (set r i v) eqn:E; [|discriminate]. injection H as <-. cbn. f_equal. eauto.
Qed.

Lemma set_some arr i v : (i < length arr)%nat -> exists arr', set arr i v = Some arr'.
Proof.
  revert i; induction arr as [|x r IH]; intros [|i] H; cbn in *; try lia; eauto.
  destruct (IH i ltac:(lia)) as [a ->]. eauto.
Qed.

Lemma set_app p x r v : set (p ++ x :: r) (length p) v = Some (p ++ v :: r).
Proof. induction p as [|y p IH]; cbn; auto. rewrite IH. reflexivity. Qed.

Lemma get_app p x r : get (p ++ x :: r) (length p) = Some x.
Proof. unfold get. rewrite nth_error_app2 by lia. now rewrite Nat.sub_diag. Qed.

Lemma set_nth arr i v arr' : set arr i v = Some arr' ->
  forall j, nth_error arr' j = if Nat.eqb i j then Some v else nth_error arr j.
Proof.
  revert i arr'; induction arr as [|x r IH]; intros [|i] arr' H j; cbn in H; try discriminate.
  - injection H as <-. destruct j; reflexivity.
  - destruct (set r i v) eqn:E; [|discriminate]. injection H as <-. destruct j as [|j]; cbn; [reflexivity|].
    apply (IH _ _ E).
Qed.

Lemma split_nth {A} (l : list A) i x : nth_error l i = Some x -> exists p r, l = p ++ x :: r /\ length p = i.
Proof. apply nth_error_split. Qed.

(** *** Permutation: exchanging two cells *)
Lemma swap_perm_gen arr i j a b arr1 arr2 : i <> j ->
  nth_error arr i = Some a -> nth_error arr j = Some b ->
  set arr i b = Some arr1 -> set arr1 j a = Some arr2 -> Permutation arr arr2.
Proof.
  revert i j arr1 arr2; induction arr as [|x r IH]; intros [|i] [|j] arr1 arr2 Hij Hi Hj H1 H2;
    cbn in *; try discriminate; try lia.
  - injection Hi as <-. injection H1 as <-. cbn in H2. destruct (set r j x) eqn:E; [|discriminate].
    injection H2 as <-. destruct (split_nth _ _ _ Hj) as (p & q & -> & <-).
    rewrite set_app in E. injection E as <-.
    rewrite <- !Permutation_middle. apply perm_swap.
  - injection Hj as <-. destruct (set r i x) eqn:E; [|discriminate]. injection H1 as <-.
    cbn in H2. injection H2 as <-. destruct (split_nth _ _ _ Hi) as (p & q & -> & <-).
    rewrite set_app in E. injection E as <-.
    rewrite <- !Permutation_middle. apply perm_swap.
  - destruct (set r i b) eqn:E; [|discriminate]. injection H1 as <-. cbn in H2.
    destruct (set l j a) eqn:E2; [|discriminate]. injection H2 as <-.
    constructor. eapply (IH i j); eauto.
Qed.

Lemma set_same arr i a arr1 : nth_error arr i = Some a -> set arr i a = Some arr1 -> arr1 = arr.
Proof.
  intros H. destruct (split_nth _ _ _ H) as (p & q & -> & <-). rewrite set_app. congruence.
Qed.

Lemma SWAP_perm arr x y arr' : x <> y -> SWAP arr (x, y) = Some arr' -> Permutation arr arr'.
Proof.
  unfold SWAP, get. intros Hxy. destruct (nth_error arr x) as [vx|] eqn:Ex; [|discriminate].
  destruct (nth_error arr y) as [vy|] eqn:Ey; [|discriminate].
  destruct (set arr x _) as [arr1|] eqn:E1; [|discriminate]. intros E2.
  unfold mmin, mmax in *. destruct (Z.ltb_spec vx vy).
  - assert (arr1 = arr) by exact (set_same _ _ _ _ Ex E1). subst arr1.
    assert (arr' = arr) by exact (set_same _ _ _ _ Ey E2). subst arr'. reflexivity.
  - eapply swap_perm_gen; eauto.
Qed.

Lemma SWAP_some arr x y : (x < length arr)%nat -> (y < length arr)%nat -> exists arr', SWAP arr (x, y) = Some arr'.
Proof.
  intros Hx Hy. unfold SWAP, get.
  destruct (nth_error arr x) eqn:Ex; [|apply nth_error_None in Ex; lia].
  destruct (nth_error arr y) eqn:Ey; [|apply nth_error_None in Ey; lia].
  destruct (set_some arr x (mmin z z0) Hx) as [a Ha]. rewrite Ha. apply set_some.
  erewrite set_len; eauto.
Qed.

(** *** 0-1 principle.  [thr t v] tells whether v is at least t, as 0/1. *)
Definition thr (t v : Z) : Z := if v <? t then 0 else 1.
Lemma thr_mono t a b : a <= b -> thr t a <= thr t b.
Proof. unfold thr; destruct (Z.ltb_spec a t), (Z.ltb_spec b t); lia. Qed.
Lemma thr_min t a b : thr t (mmin a b) = mmin (thr t a) (thr t b).
Proof.
  unfold thr, mmin. destruct (Z.ltb_spec a b), (Z.ltb_spec a t), (Z.ltb_spec b t);
  try reflexivity; try lia; destruct (_ <? _) eqn:?; lia.
Qed.
Lemma thr_max t a b : thr t (mmax a b) = mmax (thr t a) (thr t b).
Proof.
  unfold thr, mmax. destruct (Z.ltb_spec a b), (Z.ltb_spec a t), (Z.ltb_spec b t);
  try reflexivity; try lia; destruct (_ <? _) eqn:?; lia.
Qed.

Lemma set_map f arr i v : set (map f arr) i (f v) = option_map (map f) (set arr i v).
Proof.
  revert i; induction arr as [|x r IH]; intros [|i]; cbn; auto.
  rewrite IH. destruct (set r i v); reflexivity.
Qed.

Lemma SWAP_map t arr c : SWAP (map (thr t) arr) c = option_map (map (thr t)) (SWAP arr c).
Proof.
  destruct c as [x y]. unfold SWAP, get. rewrite !nth_error_map.
  destruct (nth_error arr x); cbn; auto. destruct (nth_error arr y); cbn; auto.
  rewrite <- thr_min, <- thr_max, set_map. destruct (set arr x _); cbn; auto. apply set_map.
Qed.

Lemma network_map t net : forall arr, network net (map (thr t) arr) = option_map (map (thr t)) (network net arr).
Proof.
  induction net as [|c net IH]; intros arr; cbn [network]; auto.
  rewrite SWAP_map. destruct (SWAP arr c); cbn; auto.
Qed.

Fixpoint sortedb (l : list Z) : bool :=
  match l with
  | a :: (b :: _) as r => (a <=? b) && sortedb r
  | _ => true
  end.
Lemma sortedb_ok l : sortedb l = true <-> Sorted Z.le l.
Proof.
  induction l as [|a [|b r] IH].
  - split; [constructor|reflexivity].
  - split; [repeat constructor|reflexivity].
  - change (sortedb (a :: b :: r)) with ((a <=? b) && sortedb (b :: r)). split; intros H.
    + apply andb_prop in H as [H1 H2]. constructor; [apply IH; auto|]. constructor. lia.
    + inversion H as [|? ? Hs Hh]; subst. apply andb_true_intro; split; [|apply IH; auto].
      inversion Hh; subst. lia.
Qed.

Lemma sorted_by_thr l : (forall t, Sorted Z.le (map (thr t) l)) -> Sorted Z.le l.
Proof.
  induction l as [|a l IH]; intros H; constructor.
  - apply IH. intros t. specialize (H t). cbn in H. inversion H; auto.
  - destruct l as [|b l]; constructor. specialize (H a). cbn in H. inversion H; subst.
    inversion H3; subst. unfold thr in H1. destruct (Z.ltb_spec a a), (Z.ltb_spec b a); lia.
Qed.

Fixpoint bits (n : nat) : list (list Z) :=
  match n with
  | O => [[]]
  | S n' => map (cons 0) (bits n') ++ map (cons 1) (bits n')
  end.
Lemma bits_all t l : In (map (thr t) l) (bits (length l)).
Proof.
  induction l as [|a l IH]; cbn; auto. apply in_or_app. unfold thr at 1 3.
  destruct (a <? t); [left|right]; apply in_map; auto.
Qed.

Definition net_ok (n : nat) (net : list (nat * nat)) : bool :=
  forallb (fun '(x, y) => Nat.ltb x n && Nat.ltb y n && negb (Nat.eqb x y)) net &&
  forallb (fun b => match network net b with Some o => sortedb o | None => false end) (bits n).

Lemma network_some n net : forallb (fun '(x, y) => Nat.ltb x n && Nat.ltb y n && negb (Nat.eqb x y)) net = true ->
  forall arr, length arr = n -> exists o, network net arr = Some o /\ Permutation arr o.
Proof.
  induction net as [|[x y] net IH]; cbn [forallb network]; intros H arr Hl.
  - exists arr; split; auto.
  - apply andb_prop in H as [H Hr]. apply andb_prop in H as [H Hn]. apply andb_prop in H as [Hx Hy].
    apply Nat.ltb_lt in Hx, Hy. apply negb_true_iff, Nat.eqb_neq in Hn.
    destruct (SWAP_some arr x y ltac:(lia) ltac:(lia)) as [a Ha]. rewrite Ha.
    assert (Hp := SWAP_perm _ _ _ _ Hn Ha).
    destruct (IH Hr a) as (o & Ho & Hpo). { rewrite <- Hl. symmetry. now apply Permutation_length. }
    exists o; split; auto. etransitivity; eauto.
Qed.

Lemma net_correct n net : net_ok n net = true -> forall arr, length arr = n ->
  exists o, network net arr = Some o /\ Permutation arr o /\ Sorted Z.le o.
Proof.
  intros H arr Hl. apply andb_prop in H as [H1 H2].
  destruct (network_some n net H1 arr Hl) as (o & Ho & Hp). exists o; split; auto. split; auto.
  apply sorted_by_thr. intros t. apply sortedb_ok.
  rewrite forallb_forall in H2. specialize (H2 (map (thr t) arr)). rewrite network_map, Ho in H2.
  cbn in H2. apply H2. rewrite <- Hl. apply bits_all.
Qed.

(** *** Insertion sort *)
Lemma Sorted_app_last l b : Sorted Z.le l -> Forall (fun x => x <= b) l -> Sorted Z.le (l ++ [b]).
Proof.
  induction 1 as [|a l Hs IH Hh]; intros Hf; cbn; [repeat constructor|].
  inversion Hf; subst. constructor; auto. destruct l; cbn; constructor; auto. inversion Hh; auto.
Qed.

Lemma shift_spec : forall p tmp x r, exists l,
  shift (length p) tmp (p ++ x :: r) = Some (l ++ r) /\ Permutation (p ++ [tmp]) l /\
  (StronglySorted Z.le p -> StronglySorted Z.le l).
Proof.
  induction p as [|v p IH] using rev_ind; intros tmp x r.
  - exists [tmp]. cbn. split; [reflexivity|]. split; [reflexivity|]. repeat constructor.
  - rewrite app_length, Nat.add_comm. cbn [length Nat.add shift].
    rewrite <- app_assoc. cbn [app]. rewrite get_app.
    destruct (Z.ltb_spec tmp v) as [Hlt|Hge].
    + replace (p ++ v :: x :: r) with ((p ++ [v]) ++ x :: r) by (rewrite <- app_assoc; reflexivity).
      replace (S (length p)) with (length (p ++ [v])) by (rewrite app_length; cbn; lia).
      rewrite set_app. rewrite <- app_assoc. cbn [app].
      destruct (IH tmp v (v :: r)) as (l & Hl & Hp & Hs). exists (l ++ [v]).
      rewrite Hl. split; [now rewrite <- app_assoc|]. split.
      * rewrite <- Hp. rewrite <- !app_assoc. apply Permutation_app_head. apply perm_swap.
      * intros Hsv. 
        assert (Hpv : StronglySorted Z.le p /\ Forall (fun y => y <= v) p).
        { clear -Hsv. induction p as [|a p IHp]; [split; constructor|]. cbn in Hsv. inversion Hsv; subst.
          destruct (IHp H1) as [A B]. apply Forall_app in H2 as [F1 F2]. inversion F2; subst.
          split; constructor; auto. }
        destruct Hpv as [Hsp Hfp]. specialize (Hs Hsp).
        assert (Hfl : Forall (fun y => y <= v) l).
        { eapply Permutation_Forall; [exact Hp|]. apply Forall_app; split; auto. repeat constructor. lia. }
        clear -Hs Hfl. induction l as [|a l IHl]; cbn; [repeat constructor|].
        inversion Hs; subst. inversion Hfl; subst. constructor; auto. apply Forall_app; split; auto.
    + exists ((p ++ [v]) ++ [tmp]).
      replace (p ++ v :: x :: r) with ((p ++ [v]) ++ x :: r) by (rewrite <- app_assoc; reflexivity).
      replace (S (length p)) with (length (p ++ [v])) by (rewrite app_length; cbn; lia).
      rewrite set_app. split; [rewrite <- !app_assoc; reflexivity|]. split; [reflexivity|].
      intros Hsv. 
      assert (Hfv : Forall (fun y => y <= tmp) (p ++ [v])).
      { apply Forall_app; split; [|repeat constructor; lia].
        clear -Hsv Hge. induction p as [|a p IHp]; constructor; cbn in Hsv; inversion Hsv; subst; auto.
        apply Forall_app in H2 as [_ F2]. inversion F2; subst. lia. }
      revert Hsv Hfv. generalize (p ++ [v]). clear. intros l Hs Hf.
      induction l as [|a l IHl]; cbn; [repeat constructor|].
      inversion Hs; subst. inversion Hf; subst. constructor; auto. apply Forall_app; split; auto.
Qed.

Lemma sortN_loop_spec : forall r p, StronglySorted Z.le p -> exists o,
  sortN_loop (length r) (length p) (p ++ r) = Some o /\ Permutation (p ++ r) o /\ StronglySorted Z.le o.
Proof.
  induction r as [|x r IH]; intros p Hs; cbn [length sortN_loop].
  - exists (p ++ []). rewrite app_nil_r. auto.
  - rewrite get_app. destruct (shift_spec p x x r) as (l & Hl & Hp & Hsl). rewrite Hl.
    assert (Hlen : S (length p) = length l).
    { apply Permutation_length in Hp. rewrite app_length in Hp. cbn in Hp. lia. }
    rewrite Hlen. destruct (IH l (Hsl Hs)) as (o & Ho & Hpo & Hso). exists o. split; auto. split; auto.
    rewrite <- Hpo. rewrite <- Hp. now rewrite <- app_assoc.
Qed.

Lemma sortN_spec arr : exists o, sortN (length arr) arr = Some o /\ Permutation arr o /\ Sorted Z.le o.
Proof.
  unfold sortN. destruct arr as [|a r].
  - exists []. cbn. repeat split; auto.
  - destruct (sortN_loop_spec r [a]) as (o & Ho & Hp & Hs). { repeat constructor. }
    exists o. cbn in Ho |- *. rewrite Nat.sub_0_r. split; auto. split; auto. now apply StronglySorted_Sorted.
Qed.

Lemma small_sort_correct arr :
  exists o, small_sort (length arr) arr = Some o /\ Permutation arr o /\ Sorted Z.le o.
Proof.
  remember (length arr) as n eqn:Hn.
  destruct n as [|[|[|[|[|[|[|n]]]]]]]; cbn [small_sort];
    try (apply net_correct with (n := length arr); [rewrite <- Hn; vm_compute; reflexivity|auto]);
    try (rewrite Hn; apply sortN_spec).
  destruct arr as [|a [|b r]]; try discriminate. exists [a]. repeat split; auto.
Qed.
