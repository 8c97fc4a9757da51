(** C15: subscripts of multi-dimensional arrays. *)
From Coq Require Import ZArith List Bool Lia Permutation.
From Verif.ArraySub Require Import Spec Model Proofs.
Import ListNotations.
Open Scope Z_scope.
(** Subscripting all dimensions, in any order obtained by putting dimensions off with all, addresses the element that the row-major numbering
    gives for the indices, f k being the index given for dimension k. *)
Theorem C15_address dbg sz ds f pat xs : path f pat (seq 0 (length ds)) xs -> length (order pat (seq 0 (length ds))) = length ds -> ds <> [] ->
  inside ds (map f (seq 0 (length ds))) ->
  subscripts dbg (mkar sz ds) 0 xs = Ref (Atom sz) (number ds (map f (seq 0 (length ds))) * sz).
Proof.
  intros P L NE I. rewrite mkar_over. rewrite (path_run dbg sz ds f pat (seq 0 (length ds)) 0 xs P).
  - f_equal. rewrite (weight_perm sz ds f _ (seq 0 (length ds))) by (apply order_perm; now rewrite seq_length). rewrite weight_number. lia.
  - intros k K. apply in_seq in K. apply inside_fun; auto. lia.
  - now rewrite seq_length.
  - left. destruct ds; [congruence|discriminate].
Qed.
Print Assumptions C15_address.
(** That element lies inside the array, whose size is the number of elements times theirs. *)
Theorem C15_in_bounds sz ds is : 0 < sz -> inside ds is -> sizeof (mkar sz ds) = count ds * sz /\ 0 <= number ds is * sz /\ number ds is * sz + sz <= sizeof (mkar sz ds).
Proof. intros S I. rewrite sizeof_mkar. pose proof (number_bounds ds is I). nia. Qed.
Print Assumptions C15_in_bounds.
(** Two subscript lists following patterns and ending at the same element gave the same index for every dimension, whatever the two orders. *)
Theorem C15_distinct dbg sz ds f g p1 p2 xs ys o : 0 < sz -> ds <> [] ->
  path f p1 (seq 0 (length ds)) xs -> length (order p1 (seq 0 (length ds))) = length ds -> inside ds (map f (seq 0 (length ds))) ->
  path g p2 (seq 0 (length ds)) ys -> length (order p2 (seq 0 (length ds))) = length ds -> inside ds (map g (seq 0 (length ds))) ->
  subscripts dbg (mkar sz ds) 0 xs = Ref (Atom sz) o -> subscripts dbg (mkar sz ds) 0 ys = Ref (Atom sz) o -> forall k, (k < length ds)%nat -> f k = g k.
Proof.
  intros S NE P1 L1 I1 P2 L2 I2 E1 E2 k K. rewrite (C15_address dbg sz ds f p1 xs P1 L1 NE I1) in E1. rewrite (C15_address dbg sz ds g p2 ys P2 L2 NE I2) in E2.
  assert (N : number ds (map f (seq 0 (length ds))) = number ds (map g (seq 0 (length ds)))) by (apply Z.mul_reg_r with sz; congruence || lia).
  pose proof (number_inj ds _ I1 _ I2 N) as M. assert (Q : nth k (map f (seq 0 (length ds))) (f 0%nat) = nth k (map g (seq 0 (length ds))) (f 0%nat)) by congruence.
  rewrite map_nth in Q. rewrite (nth_indep (map g _) _ (g 0%nat)) in Q by (rewrite map_length, seq_length; lia). rewrite map_nth, seq_nth in Q by lia. exact Q.
Qed.
Print Assumptions C15_distinct.
(** Every element is addressed, for every order. *)
Theorem C15_onto sz ds k : Forall (fun d => 0 <= d) ds -> 0 <= k < count ds -> exists f, inside ds (map f (seq 0 (length ds))) /\
  forall dbg pat xs, ds <> [] -> path f pat (seq 0 (length ds)) xs -> length (order pat (seq 0 (length ds))) = length ds -> subscripts dbg (mkar sz ds) 0 xs = Ref (Atom sz) (k * sz).
Proof.
  intros F K. destruct (number_onto ds k K F) as (is & I & E). destruct (tuple_fun ds is I) as [f ->]. exists f. split; auto. intros dbg pat xs NE P L. rewrite (C15_address dbg sz ds f pat xs P L NE I), E. reflexivity.
Qed.
Print Assumptions C15_onto.
(** With checking compiled in, an index outside the dimension aborts and one inside does not, on any array or slice. *)
Theorem C15_checked t off n s r i x : t = Arpk n s r -> x = Signed i \/ (x = Unsigned i /\ 0 <= i) -> (0 <= i < n -> subscript true t off x = Ref r (off + i * s)) /\ (~ 0 <= i < n -> subscript true t off x = Abort).
Proof.
  intros -> [->|[-> P]]; cbn [subscript]; unfold subcheck, subchecku, at_; cbn [negb orb]; (split; intro H).
  - rewrite (proj2 (Z.ltb_ge i 0)), (proj2 (Z.leb_gt n i)) by lia. reflexivity.
  - destruct (Z.ltb_spec i 0), (Z.leb_spec n i); cbn [orb negb]; auto; lia.
  - rewrite (proj2 (Z.leb_gt n i)) by lia. reflexivity.
  - destruct (Z.leb_spec n i); cbn [negb]; auto; lia.
Qed.
Print Assumptions C15_checked.
(** The constructor visits each element once, in row-major order, and the destructor in reverse. *)
Theorem C15_lifetime sz ds : Forall (fun d => 0 <= d) ds -> ctor (mkar sz ds) 0 = map (fun k => Z.of_nat k * sz) (seq 0 (Z.to_nat (count ds))) /\ dtor (mkar sz ds) 0 = rev (ctor (mkar sz ds) 0).
Proof. intro F. split; [|apply dtor_rev]. rewrite ctor_dense by auto. apply map_ext. intro; lia. Qed.
Print Assumptions C15_lifetime.
Example C15_ex : subscripts true (mkar 4 [3; 4; 5]) 0 [Signed 2; One; Unsigned 4] = Ref (Atom 4) 196 /\ subscripts true (mkar 4 [3; 4; 5]) 0 [All; One; All; Signed 2; Unsigned 4] = Ref (Atom 4) 196
  /\ subscripts true (mkar 4 [3; 4; 5]) 0 [All; Signed 4] = Abort /\ sizeof (mkar 4 [3; 4; 5]) = 240.
Proof. repeat split. Qed.
Example C15_ex_path : path (fun k => nth k [2; 1; 4] 0) [false; true; false; true; true] (seq 0 3) [All; One; All; Signed 2; Unsigned 4] /\ order [false; true; false; true; true] (seq 0 3) = [1; 0; 2]%nat.
Proof. split; [|reflexivity]. cbn [seq]. repeat (constructor; cbn [app nth]; try reflexivity). Qed.
Example C15_ex_life : ctor (mkar 8 [2; 2]) 0 = [0; 8; 16; 24] /\ dtor (mkar 8 [2; 2]) 0 = [24; 16; 8; 0]. Proof. repeat split. Qed.
