From Coq Require Import List Bool Arith ZArith Lia ZifyBool Permutation.
From Verif.BasicTypes Require Import Model Spec Proofs.
From Verif.Cost Require Model.
Import ListNotations.
Open Scope Z_scope.
(** generateCosts finds the cheapest conversions: whatever graph it is given and whichever of equal elements the queue puts on top, the entry for a type holds the length and the sign changes of the best path to it,
    and is -1 exactly when there is no path. *)
Theorem C89_costs : forall g r n m, wf g -> (r < length g)%nat -> turns g n (start g r) ([], m) ->
  length m = length g /\ forall c, match nth c m None with Some w => best g r c w | None => forall w, ~ path g r c w end.
Proof. exact run_best. Qed.
Print Assumptions C89_costs.
(** It always ends, within three turns for each type and one more, and is never stuck. *)
Theorem C89_ends : forall g r n s, wf g -> (r < length g)%nat -> turns g n (start g r) s ->
  (n <= 3 * length g + 1)%nat /\ (fst s <> [] -> exists t, turn g s t).
Proof.
  intros g r n s W R T; split; [|apply progress]. pose proof (turns_size g r _ _ _ W T (inv_start g r R)) as K. rewrite size_start in K; lia.
Qed.
Print Assumptions C89_ends.
(** The order of equal elements in the queue makes no difference. *)
Theorem C89_choice : forall g r n m n' m', wf g -> (r < length g)%nat -> turns g n (start g r) ([], m) -> turns g n' (start g r) ([], m') -> m = m'.
Proof.
  intros g r n m n' m' W R T T'; destruct (run_best _ _ _ _ W R T) as [L B]; destruct (run_best _ _ _ _ W R T') as [L' B'].
  apply nth_ext with None None; [congruence|]. intros c _; specialize (B c); specialize (B' c).
  destruct (nth c m None) as [w|], (nth c m' None) as [w'|]; auto.
  - f_equal; eapply best_unique; eauto.
  - destruct B as [P _]; destruct (B' _ P).
  - destruct B' as [P _]; destruct (B _ P).
Qed.
Print Assumptions C89_choice.
(** The tables in the compiler are those of the graph: safe conversions are the paths, with the cost of the best one; an unsafe one has -1 in both tables. *)
Theorem C89_tables : forall a b, kind a -> kind b ->
  (exists w, best the_graph a b w /\ costOf a b = fst w /\ signOf a b = snd w) \/ ((forall w, ~ path the_graph a b w) /\ costOf a b = -1 /\ signOf a b = -1).
Proof.
  intros a b A B; pose proof (gen_entry the_graph a b the_wf A B) as K; unfold costOf, signOf; rewrite gen_cost_is, gen_sign_is in K; auto.
Qed.
Print Assumptions C89_tables.
(** Whatever the graph, an entry of the table of common types that is filled in can be converted to from both types. *)
Theorem C89_common_upper : forall g r c k, wf g -> (r < length g)%nat -> (c < length g)%nat -> gen_common g (gen_cost g) r c = Kind k ->
  (exists w, path g r k w) /\ (exists w, path g c k w).
Proof.
  intros g r c k W R C E. assert (P : forall i j, (i < length g)%nat -> (j < length g)%nat -> 0 <=? at2 (-1) (gen_cost g) i j = true -> exists w, path g i j w).
  { intros i j I J K; destruct (gen_entry g i j W I J) as [(w & [B _] & _)|(_ & N1 & _)]; eauto. rewrite N1 in K; discriminate. }
  unfold gen_common in E. destruct (0 <=? at2 (-1) (gen_cost g) r c) eqn:E1.
  { inversion E; subst; split; [apply P; auto|exists (0, 0); constructor]. }
  destruct (0 <=? at2 (-1) (gen_cost g) c r) eqn:E2.
  { inversion E; subst; split; [exists (0, 0); constructor|apply P; auto]. }
  assert (Q : forall i, In i (kids (at_ g c)) -> 0 <=? at2 (-1) (gen_cost g) r i = true -> (exists w, path g r i w) /\ (exists w, path g c i w)).
  { intros i I K; split; [apply P; auto; eapply W; eauto|exists (plus (0, 0) (edge g c i)); apply path_snoc with (w := (0, 0)); auto; constructor]. }
  unfold kids in Q; destruct (left (at_ g c)) as [i|]; [|discriminate].
  destruct (0 <=? at2 (-1) (gen_cost g) r i) eqn:E3; [inversion E; subst; apply Q; cbn; auto|].
  destruct (middle (at_ g c)) as [j|]; [|discriminate].
  destruct (0 <=? at2 (-1) (gen_cost g) r j) eqn:E4; [inversion E; subst; apply Q; cbn; auto|].
  destruct (right (at_ g c)) as [l|]; [|discriminate].
  destruct (0 <=? at2 (-1) (gen_cost g) r l) eqn:E5; [inversion E; subst; apply Q; cbn; auto|discriminate].
Qed.
Print Assumptions C89_common_upper.
(** For the graph of the compiler every entry is filled in and no missing child is followed; the result is the table of the compiler. *)
Theorem C89_common_table : forall a b, kind a -> kind b -> gen_common the_graph (gen_cost the_graph) (Nat.min a b) (Nat.max a b) = Kind (commonOf a b).
Proof.
  intros a b A B. pose proof gen_common_is as G.
  assert (E : at2 Unset (gen_commons the_graph) a b = at2 Unset (map (map Kind) commonTypes) a b) by (rewrite G; auto).
  assert (L : all2 (fun a b => match at2 Unset (map (map Kind) commonTypes) a b with Kind k => Nat.eqb k (commonOf a b) | _ => false end) = true) by (vm_compute; reflexivity).
  pose proof (all2_ok _ L a b A B) as L2; cbv beta in L2. rewrite <- E in L2. clear E G L.
  unfold gen_commons in L2; unfold at2 in L2 at 1.
  set (n := length the_graph) in L2. assert (Hn : n = 36%nat) by reflexivity. unfold kind, kinds in *.
  rewrite (map_nth' (fun r => map (fun c => gen_common the_graph (gen_cost the_graph) (Nat.min r c) (Nat.max r c)) (seq 0 n)) _ _ _ 0%nat), seq_nth in L2 by (rewrite ?seq_length; lia). cbn [Nat.add] in L2.
  rewrite (map_nth' (fun c => gen_common the_graph (gen_cost the_graph) (Nat.min a c) (Nat.max a c)) _ _ _ 0%nat), seq_nth in L2 by (rewrite ?seq_length; lia). cbn [Nat.add] in L2.
  destruct (gen_common the_graph (gen_cost the_graph) (Nat.min a b) (Nat.max a b)); try discriminate. f_equal; apply Nat.eqb_eq; auto.
Qed.
Print Assumptions C89_common_table.
(** Safe conversion is a partial order, and going by way of a third type is never cheaper. *)
Theorem C89_order : forall a b c, kind a -> kind b -> kind c ->
  safe a a /\ (safe a b -> safe b a -> a = b) /\ (safe a b -> safe b c -> safe a c /\ costOf a c <= costOf a b + costOf b c).
Proof.
  intros a b c A B C; split; [unfold safe; destruct (cost_refl a A); lia|split; [apply cost_anti; auto|apply cost_tri; auto]].
Qed.
Print Assumptions C89_order.
(** The common type of two types is the least type both convert to safely. *)
Theorem C89_common_least : forall a b, kind a -> kind b ->
  kind (commonOf a b) /\ safe a (commonOf a b) /\ safe b (commonOf a b) /\ forall d, kind d -> safe a d -> safe b d -> safe (commonOf a b) d.
Proof.
  intros a b A B; destruct (common_up a b A B); repeat split; auto. { apply common_kind; auto. } intros d D; apply common_least; auto.
Qed.
Print Assumptions C89_common_least.
(** It is also the cheapest: no other type both convert to takes less in total, or for either of them. *)
Theorem C89_common_cheapest : forall a b d, kind a -> kind b -> kind d -> safe a d -> safe b d ->
  costOf a (commonOf a b) <= costOf a d /\ costOf b (commonOf a b) <= costOf b d /\
  (d <> commonOf a b -> costOf a (commonOf a b) + costOf b (commonOf a b) < costOf a d + costOf b d).
Proof.
  intros a b d A B D; unfold safe.
  assert (K : implb ((0 <=? costOf a d) && (0 <=? costOf b d))
    ((costOf a (commonOf a b) <=? costOf a d) && (costOf b (commonOf a b) <=? costOf b d) &&
     ((d =? commonOf a b)%nat || (costOf a (commonOf a b) + costOf b (commonOf a b) <? costOf a d + costOf b d))) = true)
    by (revert a b d A B D; apply all3_ok; vm_compute; reflexivity).
  lia.
Qed.
Print Assumptions C89_common_cheapest.
(** For any number of operands the common type depends neither on their order nor on how they are grouped, and is the least type all of them convert to. *)
Theorem C89_common_of_many : forall a l, kind a -> Forall kind l ->
  (forall x, In x (a :: l) -> safe x (commonAll a l)) /\
  (forall d, kind d -> (forall x, In x (a :: l) -> safe x d) -> safe (commonAll a l) d) /\
  (forall b k, Permutation (a :: l) (b :: k) -> commonAll a l = commonAll b k) /\
  (forall b k, l = b :: k -> commonAll a l = commonOf a (commonAll b k)).
Proof.
  intros a l A L; split; [apply all_up; auto|]. split; [intros; apply all_least; auto|]. split; [intros; apply all_perm; auto|].
  intros b k ->. inversion L as [|? ? B K]; subst. clear L; revert a b A B; induction k as [|c k IH]; intros a b A B; [reflexivity|].
  inversion K as [|? ? C K']; subst; cbn [commonAll fold_left]. rewrite common_assoc by auto. apply (IH K' a (commonOf b c)); auto. apply common_kind; auto.
Qed.
Print Assumptions C89_common_of_many.
(** The cost handed to the resolver: it is always there, a safe conversion is cheaper than the least unsafe one, an unsafe one is exactly that; zero_t and one_t cost one more than int; zero_t becomes a pointer only when no basic type
    will do. *)
Theorem C89_resolver_cost : forall a b, kind a -> kind b ->
  exists x y z, conv a b = Some x /\ conv01 b = Some y /\ conv0p = Some z /\
  (if 0 <=? costOf a b then Model.ltb x Model.unsafe && (Model.get_safe x =? costOf a b) && (Model.get_sign x =? signOf a b) else Model.eqb x Model.unsafe) = true /\
  (if 0 <=? costOf SignedInt b then Model.ltb y z && (Model.get_safe y =? costOf SignedInt b + 1) else Model.ltb z y) = true.
Proof.
  intros a b A B.
  assert (K : match conv a b, conv01 b, conv0p with
    | Some x, Some y, Some z =>
       (if 0 <=? costOf a b then Model.ltb x Model.unsafe && (Model.get_safe x =? costOf a b) && (Model.get_sign x =? signOf a b) else Model.eqb x Model.unsafe) &&
       (if 0 <=? costOf SignedInt b then Model.ltb y z && (Model.get_safe y =? costOf SignedInt b + 1) else Model.ltb z y)
    | _, _, _ => false end = true) by (revert a b A B; apply all2_ok; vm_compute; reflexivity).
  destruct (conv a b) as [x|], (conv01 b) as [y|], conv0p as [z|]; try discriminate. apply andb_prop in K; destruct K. exists x, y, z; auto.
Qed.
Print Assumptions C89_resolver_cost.
(** In the order of the resolver, too, the direct conversion is no dearer than two conversions, and the common type is the target that is cheapest for the two operands together. *)
Theorem C89_resolver_order : forall a b c, kind a -> kind b -> kind c -> exists x y z u v,
  conv a b = Some x /\ conv b c = Some y /\ conv a c = Some z /\ conv a (commonOf a b) = Some u /\ conv b (commonOf a b) = Some v /\
  (safe a b -> safe b c -> Model.leb z (Model.add x y) = true) /\ (safe a c -> safe b c -> c <> commonOf a b -> Model.ltb (Model.add u v) (Model.add z y) = true).
Proof.
  intros a b c A B C; unfold safe.
  assert (K : match conv a b, conv b c, conv a c, conv a (commonOf a b), conv b (commonOf a b) with
    | Some x, Some y, Some z, Some u, Some v => implb ((0 <=? costOf a b) && (0 <=? costOf b c)) (Model.leb z (Model.add x y)) &&
         implb ((0 <=? costOf a c) && (0 <=? costOf b c)) ((c =? commonOf a b)%nat || Model.ltb (Model.add u v) (Model.add z y))
    | _, _, _, _, _ => false end = true) by (revert a b c A B C; apply all3_ok; vm_compute; reflexivity).
  destruct (conv a b) as [x|], (conv b c) as [y|], (conv a c) as [z|], (conv a (commonOf a b)) as [u|], (conv b (commonOf a b)) as [v|]; try discriminate.
  exists x, y, z, u, v; repeat split; auto; lia.
Qed.
Print Assumptions C89_resolver_order.
(** Not for each operand by itself: char (1) and unsigned char (3) have unsigned char in common, but char becomes short (4), which both convert to, with the same length and fewer sign changes. *)
Example C89_operand_ex : commonOf 1 3 = 3%nat /\ safe 1 4 /\ safe 3 4 /\ exists x y, conv 1 4 = Some x /\ conv 1 3 = Some y /\ Model.ltb x y = true.
Proof. repeat split; try (vm_compute; congruence). do 2 eexists; repeat split; vm_compute; reflexivity. Qed.
(** maxIntCost is the dearest safe conversion of int. *)
Theorem C89_max_int : (forall b, kind b -> costOf SignedInt b <= maxIntCost) /\ exists b, kind b /\ costOf SignedInt b = maxIntCost.
Proof.
  split; [|exists 35%nat; split; [unfold kind, kinds; lia|vm_compute; reflexivity]].
  intros b B; assert (K : costOf SignedInt b <=? maxIntCost = true) by (revert b B; apply all1_ok; vm_compute; reflexivity). lia.
Qed.
Print Assumptions C89_max_int.
(** The loop that prints the hierarchy of ranks reads the rank of the node after the last one. *)
Theorem C89_hierarchy_refuted : ~ forall i, In i (snd (hierarchy the_graph 36 0)) -> (i < length the_graph)%nat.
Proof. intros H. assert (K : (36 < length the_graph)%nat) by (apply H; vm_compute; tauto). vm_compute in K; lia. Qed.
Print Assumptions C89_hierarchy_refuted.
(** Up to that read it prints what stands in the compiler's source. *)
Example C89_hierarchy_ex : fst (hierarchy the_graph 36 0) = [[0]; [1; 2; 3]; [4; 5]; [6; 7]; [8; 9]; [10; 11]; [12; 13]; [14]; [15]; [16]; [17]; [18]; [19]; [20]; [21]; [22]; [23]; [24]; [25]; [26]; [27]; [28]; [29]; [30]; [31]; [32]; [33]; [34]; [35]]%nat.
Proof. vm_compute; reflexivity. Qed.
(** double (24) and float _Complex (19) have double _Complex (25) in common; int (6) to unsigned long (9) has length 2 and one sign change *)
Example C89_demo : commonOf 24 19 = 25%nat /\ costOf 24 19 = -1 /\ costOf 19 24 = -1 /\ (costOf 6 9, signOf 6 9) = (2, 1) /\ costOf 9 6 = -1 /\ commonAll 1 [6; 24; 19; 9]%nat = 25%nat.
Proof. vm_compute; repeat split. Qed.
(** generateCommonType relies on the shape of the graph: here the types 0 and 1 both convert to 2, which converts to 3, and it answers 3; with no common type it follows the index -1 *)
Example C89_common_general_ex :
  (let g := [N Signed (Some 2%nat) None None 0; N Signed (Some 3%nat) (Some 2%nat) None 0; N Signed (Some 3%nat) None None 1; N Signed None None None 2] in gen_common g (gen_cost g) 0 1 = Kind 3) /\
  (let g := [N Signed None None None 0; N Signed None None None 0] in gen_common g (gen_cost g) 0 1 = Bad).
Proof. vm_compute; split; reflexivity. Qed.
