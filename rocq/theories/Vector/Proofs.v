(** The block holds the sequence. *)
From Coq Require Import ZArith List Bool Lia ZifyBool.
From Verif.Vector Require Import Spec Model.
Import ListNotations.
Open Scope Z_scope.
Record Rep (sz : Z) (v : vec) (xs : list Z) : Prop := {
  rs : size v = Z.of_nat (length xs);
  rc : cap v = Z.of_nat (length (blk v));
  rf : firstn (length xs) (blk v) = map Val xs;
  rl : (length xs <= length (blk v))%nat;
  rb : cap v * sz < W }.
Lemma put_length {A} (xs : list A) : forall i x, length (put xs i x) = length xs.
Proof. induction xs as [|a r IH]; intros [|i] x; cbn [put length]; auto. Qed.
Lemma firstn_put_out {A} (xs : list A) : forall n i x, (n <= i)%nat -> firstn n (put xs i x) = firstn n xs.
Proof. induction xs as [|a r IH]; intros [|n] [|i] x H; cbn [put firstn]; auto; try lia. f_equal. apply IH. lia. Qed.
Lemma firstn_put_in {A} (xs : list A) : forall n i x, (i < n)%nat -> firstn n (put xs i x) = put (firstn n xs) i x.
Proof. induction xs as [|a r IH]; intros [|n] [|i] x H; cbn [put firstn]; auto; try lia. f_equal. apply IH. lia. Qed.
Lemma map_put {A B} (f : A -> B) xs : forall i x, map f (put xs i x) = put (map f xs) i (f x).
Proof. induction xs as [|a r IH]; intros [|i] x; cbn [put map]; auto. now rewrite IH. Qed.
Lemma firstn_put_snoc {A} (xs : list A) : forall n x, (n < length xs)%nat -> firstn (S n) (put xs n x) = firstn n xs ++ [x].
Proof. induction xs as [|a r IH]; intros [|n] x H; cbn [put firstn length app] in *; auto; try lia. f_equal. apply IH. lia. Qed.
Lemma nth_firstn {A} (xs : list A) : forall n i, (i < n)%nat -> nth_error (firstn n xs) i = nth_error xs i.
Proof. induction xs as [|a r IH]; intros [|n] [|i] H; cbn [firstn nth_error]; auto; try lia. apply IH. lia. Qed.
Lemma rd_ok sz v xs i : Rep sz v xs -> (i < length xs)%nat -> rd v (Z.of_nat i) = nth_error xs i.
Proof.
  intros R H. unfold rd. replace (Z.of_nat i <? 0) with false by lia. rewrite Nat2Z.id. rewrite <- (nth_firstn (blk v) (length xs) i H), (rf _ _ _ R), nth_error_map.
  destruct (nth_error xs i) eqn:E; auto.
Qed.
Lemma grow_ok sz v xs n : 0 < sz -> Rep sz v xs -> 0 <= n -> 2 * n * sz < W -> Rep sz (grow sz v n) xs /\ n <= cap (grow sz v n).
Proof.
  intros S R N B. unfold grow. destruct (Z.ltb_spec (cap v) n) as [H|H]; [|split; auto; lia].
  assert (NB : 2 * n < W) by nia. assert (E1 : (2 * n) mod W = 2 * n) by (apply Z.mod_small; lia). rewrite E1.
  assert (E2 : (2 * n * sz) mod W = 2 * n * sz) by (apply Z.mod_small; nia). rewrite E2.
  pose proof (rc _ _ _ R) as C. pose proof (rl _ _ _ R) as L.
  assert (RL : length (realloc (blk v) (2 * n * sz) sz) = Z.to_nat (2 * n)). { unfold realloc. rewrite Z.div_mul by lia. rewrite app_length, firstn_length, repeat_length. lia. }
  split; [|cbn [cap]; lia]. constructor; cbn [size cap blk].
  - apply (rs _ _ _ R).
  - rewrite RL. lia.
  - unfold realloc. rewrite Z.div_mul by lia. rewrite <- (rf _ _ _ R). rewrite firstn_app, firstn_firstn, firstn_length.
    replace (length xs - Init.Nat.min (Z.to_nat (2 * n)) (length (blk v)))%nat with 0%nat by lia. cbn [firstn]. rewrite app_nil_r. f_equal. lia.
  - rewrite RL. lia.
  - lia.
Qed.
(** the sizes an operation asks for fit in size_t *)
Definition fits (sz : Z) (xs : list Z) (o : op) : Prop :=
  match o with Push _ => 2 * (Z.of_nat (length xs) + 1) * sz < W | Reserve n => 0 <= n /\ 2 * n * sz < W | _ => True end.
Lemma sim sz v xs o ys r : 0 < sz -> Rep sz v xs -> spec xs o ys r -> fits sz xs o -> exists v', exec sz v o = Some (v', r) /\ Rep sz v' ys.
Proof.
  intros S R Sp F. pose proof (rs _ _ _ R) as Rs. pose proof (rc _ _ _ R) as Rc. pose proof (rl _ _ _ R) as Rl. pose proof (rb _ _ _ R) as Rb. destruct Sp; cbn [exec fits] in *.
  - unfold push_back. rewrite Rs. assert (E : (Z.of_nat (length xs) + 1) mod W = Z.of_nat (length xs) + 1) by (apply Z.mod_small; nia). rewrite E.
    destruct (grow_ok sz v xs (Z.of_nat (length xs) + 1) S R) as [G1 G2]; [lia|lia|]. set (g := grow sz v _) in *. clearbody g.
    pose proof (rs _ _ _ G1) as Gs. pose proof (rc _ _ _ G1) as Gc. pose proof (rb _ _ _ G1) as Gb. pose proof (rl _ _ _ G1) as Gl.
    unfold wr. replace ((Z.of_nat (length xs) <? 0) || (Z.of_nat (length (blk g)) <=? Z.of_nat (length xs))) with false by lia. eexists. split; [reflexivity|].
    cbn [blk cap size]. rewrite Gs, E, Nat2Z.id. constructor; cbn [blk cap size]; rewrite ?put_length, ?app_length; cbn [length]; try lia.
    rewrite Nat.add_1_r. rewrite firstn_put_snoc by lia. rewrite (rf _ _ _ G1), map_app. reflexivity.
  - subst xs. rewrite app_length in *. cbn [length] in *. unfold pop_back. rewrite Rs. assert (E : (Z.of_nat (length ys + 1) - 1) mod W = Z.of_nat (length ys)) by (rewrite Z.mod_small; nia). rewrite E.
    rewrite (rd_ok sz v (ys ++ [x]) (length ys) R) by (rewrite app_length; cbn [length]; lia). rewrite nth_error_app2 by lia. rewrite Nat.sub_diag. cbn [nth_error].
    unfold wr. replace ((Z.of_nat (length ys) <? 0) || (Z.of_nat (length (blk v)) <=? Z.of_nat (length ys))) with false by lia. eexists. split; [reflexivity|].
    cbn [blk cap size]. constructor; cbn [blk cap size]; rewrite ?put_length; auto; try lia.
    rewrite Nat2Z.id, firstn_put_out by lia. pose proof (rf _ _ _ R) as Rf. rewrite app_length, map_app in Rf. cbn [length map] in Rf.
    apply (f_equal (firstn (length ys))) in Rf. rewrite firstn_firstn in Rf. replace (Init.Nat.min (length ys) (length ys + 1)) with (length ys) in Rf by lia. rewrite Rf, firstn_app, map_length, Nat.sub_diag. cbn [firstn]. rewrite app_nil_r. rewrite firstn_all2; auto. rewrite map_length. lia.
  - eexists. split; [reflexivity|]. apply grow_ok; tauto.
  - assert (I : (i < length xs)%nat) by (apply nth_error_Some; congruence). rewrite (rd_ok sz v xs i R I), H. exists v. auto.
  - unfold wr. replace ((Z.of_nat i <? 0) || (Z.of_nat (length (blk v)) <=? Z.of_nat i)) with false by lia. eexists. split; [reflexivity|]. rewrite Nat2Z.id.
    constructor; cbn [blk cap size]; rewrite ?put_length; auto. rewrite firstn_put_in by auto. rewrite (rf _ _ _ R), map_put. reflexivity.
  - subst xs. change 0 with (Z.of_nat 0). rewrite (rd_ok sz v (x :: r) 0 R) by (cbn [length]; lia). exists v. auto.
  - subst xs. rewrite app_length in *. cbn [length] in *. rewrite Rs. assert (E : (Z.of_nat (length ys + 1) - 1) mod W = Z.of_nat (length ys)) by (rewrite Z.mod_small; nia). rewrite E.
    rewrite (rd_ok sz v (ys ++ [x]) (length ys) R) by (rewrite app_length; cbn [length]; lia). rewrite nth_error_app2 by lia. rewrite Nat.sub_diag. cbn [nth_error]. exists v. auto.
  - rewrite Rs. exists v. auto.
  - exists v. split; auto. rewrite Rs. destruct xs; reflexivity.
Qed.
Inductive fit_run (sz : Z) : list Z -> list op -> list Z -> list res -> Prop :=
| fr_nil xs : fit_run sz xs [] xs []
| fr_cons xs o ys r os zs rs : spec xs o ys r -> fits sz xs o -> fit_run sz ys os zs rs -> fit_run sz xs (o :: os) zs (r :: rs).
Lemma runs_rep sz : 0 < sz -> forall os xs ys rs v, fit_run sz xs os ys rs -> Rep sz v xs -> exists v', execs sz v os = Some (v', rs) /\ Rep sz v' ys.
Proof.
  intro S. induction os as [|o os IH]; intros xs ys rs v R P; inversion R as [|xs' o' y1 r os' zs rs' R1 R2 R3]; subst; cbn [execs].
  - exists v; auto.
  - destruct (sim sz v xs o y1 r S P R1 R2) as (v1 & A & B). rewrite A. destruct (IH y1 ys rs' v1 R3 B) as (v2 & C & D). rewrite C. exists v2; auto.
Qed.
Lemma new_rep sz : Rep sz new []. Proof. constructor; cbn; auto. reflexivity. Qed.
