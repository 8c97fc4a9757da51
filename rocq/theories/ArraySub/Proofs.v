From Coq Require Import ZArith List Bool Lia ZifyBool Permutation.
From Verif.ArraySub Require Import Spec Model.
Import ListNotations.
Open Scope Z_scope.
Lemma count_nonneg ds : Forall (fun d => 0 <= d) ds -> 0 <= count ds.
Proof. induction 1; cbn [count]; nia. Qed.
Lemma number_bounds ds is : inside ds is -> 0 <= number ds is < count ds.
Proof. induction 1 as [|d i ds is H F IH]; cbn [number count]; nia. Qed.
Lemma number_inj ds is : inside ds is -> forall js, inside ds js -> number ds is = number ds js -> is = js.
Proof.
  induction 1 as [|d i ds is H F IH]; intros js J E; inversion J as [|d' j ds' js' Hj Fj]; subst; auto. cbn [number] in E.
  pose proof (number_bounds _ _ F). pose proof (number_bounds _ _ Fj). assert (i = j) as -> by nia. f_equal. apply IH; auto. lia.
Qed.
Lemma number_onto ds : forall k, 0 <= k < count ds -> Forall (fun d => 0 <= d) ds -> exists is, inside ds is /\ number ds is = k.
Proof.
  induction ds as [|d r IH]; intros k K F; cbn [count number] in *.
  - exists []. split; [constructor|lia].
  - inversion F as [|d' r' Fd Fr]; subst. pose proof (count_nonneg r Fr). assert (0 < count r) by nia.
    destruct (IH (k mod count r)) as (is & A & B); auto; [apply Z.mod_pos_bound; lia|]. exists (k / count r :: is). split.
    + constructor; auto. split; [apply Z.div_pos; lia|apply Z.div_lt_upper_bound; lia].
    + cbn [number]. rewrite B. rewrite Z.mul_comm. symmetry. apply Z.div_mod. lia.
Qed.
Lemma sizeof_mkar sz ds : sizeof (mkar sz ds) = count ds * sz.
Proof. induction ds as [|d r IH]; cbn [mkar sizeof count]; [lia|]. rewrite IH. lia. Qed.
(** the type over a list of dimensions, given by their numbers in the declaration *)
Definition ext (ds : list Z) (k : nat) : Z := nth k ds 0.
Definition stride (sz : Z) (ds : list Z) (k : nat) : Z := count (skipn (S k) ds) * sz.
Fixpoint over (sz : Z) (ds : list Z) (q : list nat) : ty := match q with [] => Atom sz | k :: r => Arpk (ext ds k) (stride sz ds k) (over sz ds r) end.
Lemma over_enq sz ds k q : enq (ext ds k) (stride sz ds k) (over sz ds q) = over sz ds (q ++ [k]).
Proof. induction q as [|x q IH]; cbn [enq over app]; auto. now rewrite IH. Qed.
Lemma over_ext sz ds ds' q : (forall k, In k q -> ext ds k = ext ds' k /\ stride sz ds k = stride sz ds' k) -> over sz ds q = over sz ds' q.
Proof. induction q as [|x q IH]; intro E; cbn [over]; auto. destruct (E x (or_introl eq_refl)) as [-> ->]. rewrite IH; auto. intros k I. apply E. now right. Qed.
Lemma over_shift sz d ds q : over sz (d :: ds) (map S q) = over sz ds q.
Proof. induction q as [|x q IH]; cbn [over map]; auto. now rewrite IH. Qed.
Lemma mkar_over sz ds : mkar sz ds = over sz ds (seq 0 (length ds)).
Proof. induction ds as [|d r IH]; cbn [mkar length seq over]; auto. rewrite <- seq_shift, over_shift, <- IH, sizeof_mkar. reflexivity. Qed.
(** the subscripts following a pattern, f giving the index for each dimension, in any of the index types *)
Inductive given (i : Z) : sub -> Prop := g_z : i = 0 -> given i Zero | g_o : i = 1 -> given i One | g_s : given i (Signed i) | g_u : given i (Unsigned i).
Inductive path (f : nat -> Z) : list bool -> list nat -> list sub -> Prop :=
| p_nil q : path f [] q []
| p_ix p k q x xs : given (f k) x -> path f p q xs -> path f (true :: p) (k :: q) (x :: xs)
| p_all p k q xs : path f p (q ++ [k]) xs -> path f (false :: p) (k :: q) (All :: xs).
Definition weight (sz : Z) (ds : list Z) (f : nat -> Z) (q : list nat) : Z := fold_right (fun k a => f k * stride sz ds k + a) 0 q.
Lemma path_run dbg sz ds f pat : forall q off xs, path f pat q xs -> (forall k, In k q -> 0 <= f k < ext ds k) -> length (order pat q) = length q -> q <> [] \/ pat = [] ->
  subscripts dbg (over sz ds q) off xs = Ref (Atom sz) (off + weight sz ds f (order pat q)).
Proof.
  induction pat as [|b p IH]; intros q off xs P F L NE; inversion P as [q'|p' k r x ys G P'|p' k r ys P']; subst; cbn [order length] in L.
  - destruct q; [|discriminate]. cbn [over subscripts order weight fold_right]. f_equal. lia.
  - assert (NE' : r <> [] \/ p = []). { destruct r; [right|left; discriminate]. inversion P' as [| |]; subst; auto. }
    cbn [over subscripts order weight fold_right]. assert (Fk := F k (or_introl eq_refl)).
    assert (E : subscript dbg (Arpk (ext ds k) (stride sz ds k) (over sz ds r)) off x = Ref (over sz ds r) (off + f k * stride sz ds k)).
    { destruct G as [Z|Z| |]; cbn [subscript]; unfold subcheck, subchecku; rewrite ?Z in *; destruct dbg; cbn [negb orb]; unfold at_;
      try (rewrite (proj2 (Z.ltb_ge _ _)) by lia); try (rewrite (proj2 (Z.leb_gt _ _)) by lia); cbn [negb orb]; reflexivity. }
    rewrite E. rewrite (IH r _ ys P'); [f_equal; unfold weight; lia| |lia|auto]. intros j I. apply F. now right.
  - cbn [over subscripts subscript order]. rewrite over_enq. apply IH; auto.
    + intros j I. apply F. apply in_app_iff in I as [I|[<-|[]]]; [now right|now left].
    + rewrite L, app_length. cbn [length]. lia.
    + left. destruct r; discriminate.
Qed.
Lemma order_perm pat : forall q, length (order pat q) = length q -> Permutation (order pat q) q.
Proof.
  assert (LE : forall pat q, (length (order pat q) <= length q)%nat).
  { intro p0. induction p0 as [|b p IH]; intros [|x r]; cbn [order length]; try lia; [destruct b; cbn [length]; lia|]. destruct b; cbn [length]; [specialize (IH r); lia|]. specialize (IH (r ++ [x])). rewrite app_length in IH. cbn [length] in IH. lia. }
  induction pat as [|b p IH]; intros [|x r] L; cbn [order length] in *; try discriminate; [constructor|destruct b; constructor|].
  destruct b; cbn [length] in L.
  - constructor. apply IH. lia.
  - transitivity (r ++ [x]); [apply IH; rewrite app_length; cbn [length]; lia|]. symmetry. apply Permutation_cons_append.
Qed.
Lemma weight_perm sz ds f q q' : Permutation q q' -> weight sz ds f q = weight sz ds f q'.
Proof. unfold weight. induction 1; cbn [fold_right]; lia. Qed.
Lemma weight_shift sz d ds f q : weight sz (d :: ds) f (map S q) = weight sz ds (fun k => f (S k)) q.
Proof. unfold weight. induction q as [|x q IH]; cbn [map fold_right]; auto. rewrite IH. reflexivity. Qed.
Lemma weight_number sz ds : forall f, weight sz ds f (seq 0 (length ds)) = number ds (map f (seq 0 (length ds))) * sz.
Proof.
  induction ds as [|d r IH]; intro f; cbn [length seq map number]; [reflexivity|]. unfold weight. cbn [fold_right]. fold (weight sz (d :: r) f (seq 1 (length r))).
  rewrite <- seq_shift, weight_shift, IH, map_map. unfold stride. cbn [skipn]. lia.
Qed.
Lemma inside_fun ds : forall f, inside ds (map f (seq 0 (length ds))) <-> (forall k, (k < length ds)%nat -> 0 <= f k < ext ds k).
Proof.
  induction ds as [|d r IH]; intro f; cbn [length seq map].
  - split; [intros _ k; lia|constructor].
  - rewrite <- seq_shift, map_map. split.
    + intros H k K. inversion H as [|d' i ds' is' A B]; subst. destruct k as [|k]; [exact A|]. unfold ext. cbn [nth]. apply (proj1 (IH (fun x => f (S x)))); [exact B|lia].
    + intro H. constructor; [apply (H 0%nat); lia|]. apply IH. intros k K. apply (H (S k)). lia.
Qed.
Lemma tuple_fun ds is : inside ds is -> exists f, is = map f (seq 0 (length ds)).
Proof.
  intro I. exists (fun k => nth k is 0). assert (L : length ds = length is) by (induction I; cbn [length]; auto). rewrite L. clear.
  induction is as [|i r IH]; cbn [length seq map]; auto. f_equal. rewrite <- seq_shift, map_map. exact IH.
Qed.
(** construction order *)
Lemma rev_flat {A B} (f g : A -> list B) l : (forall a, In a l -> g a = rev (f a)) -> flat_map g (rev l) = rev (flat_map f l).
Proof.
  induction l as [|a l IH]; intro H; auto. cbn [rev flat_map]. rewrite flat_map_app, rev_app_distr, IH by (intros; apply H; now right). cbn [flat_map]. rewrite app_nil_r. f_equal. apply H. now left.
Qed.
Lemma rev_seq n : rev (seq 0 n) = map (fun i => n - i - 1)%nat (seq 0 n).
Proof.
  induction n as [|n IH]; auto. rewrite seq_S at 1. rewrite rev_app_distr, IH. cbn [rev app plus seq map]. f_equal; [lia|]. rewrite <- seq_shift, map_map. apply map_ext. intro; lia.
Qed.
Lemma flat_map_map {A B C} (f : A -> B) (g : B -> list C) l : flat_map g (map f l) = flat_map (fun a => g (f a)) l.
Proof. induction l; cbn [map flat_map]; congruence. Qed.
Lemma flat_map_in {A B} (f g : A -> list B) l : (forall a, In a l -> f a = g a) -> flat_map f l = flat_map g l.
Proof. induction l as [|a l IH]; intro H; cbn [flat_map]; auto. rewrite (H a) by now left. rewrite IH; auto. intros; apply H; now right. Qed.
Lemma dtor_rev t : forall off, dtor t off = rev (ctor t off).
Proof.
  induction t as [sz|n s r IH]; intro off; cbn [dtor ctor]; auto. rewrite <- (rev_flat _ (fun i => dtor r (off + Z.of_nat i * s))) by (intros; apply IH).
  rewrite rev_seq, flat_map_map. apply flat_map_in. intros i I. apply in_seq in I. do 2 f_equal. f_equal. lia.
Qed.
Lemma ctor_dense sz ds : Forall (fun d => 0 <= d) ds -> forall off, ctor (mkar sz ds) off = map (fun k => off + Z.of_nat k * sz) (seq 0 (Z.to_nat (count ds))).
Proof.
  induction 1 as [|d r Hd F IH]; intro off; cbn [mkar ctor count].
  - change (Z.to_nat 1) with 1%nat. cbn [seq map]. f_equal. lia.
  - pose proof (count_nonneg r F) as C. rewrite sizeof_mkar. rewrite Z2Nat.inj_mul by auto. set (m := Z.to_nat (count r)) in *. assert (Em : count r = Z.of_nat m) by (unfold m; lia). rewrite Em.
    assert (G : forall n o, flat_map (fun i => ctor (mkar sz r) (off + Z.of_nat i * (Z.of_nat m * sz))) (seq o n) = map (fun k => off + Z.of_nat k * sz) (seq (o * m) (n * m))).
    { induction n as [|n IHn]; intro o; cbn [seq flat_map Nat.mul]; [reflexivity|]. rewrite seq_app, map_app, IHn, IH. f_equal; [|do 2 f_equal; lia].
      rewrite <- (Nat.add_0_r (o * m)) at 1. assert (S : forall a l, map (fun k => off + Z.of_nat k * sz) (seq (o * m + a) l) = map (fun k => off + Z.of_nat o * (Z.of_nat m * sz) + Z.of_nat k * sz) (seq a l)).
      { intros a l. revert a. induction l as [|l IHl]; intro a; cbn [seq map]; auto. rewrite <- IHl. f_equal; [lia|]. do 2 f_equal. lia. }
      rewrite S. reflexivity. }
    apply (G (Z.to_nat d) 0%nat).
Qed.
