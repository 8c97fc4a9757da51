From Coq Require Import List ZArith Lia.
From Verif.HeapBuckets Require Import Model Spec Proofs.
Import ListNotations.
Local Open Scope Z_scope.

(** For every large-object threshold the allocator accepts, every request that with its 16-byte header is below the
    threshold gets the smallest class that holds it (and a class the allocator uses). *)
Theorem C18_smallest_class : forall page mmapStart maxUsed size, 0 <= page ->
  setMmapStart page mmapStart = Some maxUsed -> 0 <= size -> size + 16 < mmapStart ->
  exists k, choose mmapStart maxUsed size = Some k /\ least_class bucketSizes (size + 16) k /\ (k <= maxUsed)%nat.
Proof.
  intros page m mu size P H S T. destruct (setMmap_ok page m P mu H) as (R & L).
  apply choose_least; auto. lia.
Qed.
Print Assumptions C18_smallest_class.

(** The fast lookup table has an entry for every size it covers, and the entry is the answer of the binary search. *)
Theorem C18_lookup_agrees : forall n, 0 <= n < 65552 ->
  lookup n = Bsearchl n bucketSizes 91 /\ exists k, lookup n = Some k.
Proof.
  intros n N. split; [apply lookup_search; exact N|].
  destruct (lookup_least n N) as (k & E & _). eauto.
Qed.
Print Assumptions C18_lookup_agrees.

(** The threshold is accepted exactly between the page size and the largest class, and then some class holds it. *)
Theorem C18_threshold : forall page v, 0 <= page ->
  ((exists m, setMmapStart page v = Some m) <-> page <= v <= 4194320) /\
  (forall m, setMmapStart page v = Some m -> least_class bucketSizes v m).
Proof.
  intros page v P. split; [split|].
  - intros (m & H). apply (setMmap_ok page v P m H).
  - intros R. unfold setMmapStart. change (nth (NoBucketSizes - 1) bucketSizes 0) with 4194320.
    replace (v <? page) with false by (symmetry; apply Z.ltb_ge; lia).
    replace (4194320 <? v) with false by (symmetry; apply Z.ltb_ge; lia). cbn [orb].
    destruct (Bsearchl_least v) as (k & E & _); [lia|]. eauto.
  - intros m H. apply (setMmap_ok page v P m H).
Qed.
Print Assumptions C18_threshold.

(** Storage left over in a thread's buffer is filed under a class it can really serve, whatever its amount; below the
    threshold it is the largest such class, and only a remainder smaller than every class is dropped. *)
Theorem C18_leftover_safe : forall page mmapStart maxUsed rem k, 0 <= page ->
  setMmapStart page mmapStart = Some maxUsed -> 0 <= rem -> leftover maxUsed rem = Some k ->
  exists b, nth_error bucketSizes k = Some b /\ b <= rem.
Proof.
  intros page m mu rem k P H R E. destruct (setMmap_ok page m P mu H) as (_ & L).
  apply (leftover_ok mu); auto. apply (least_lt m); auto.
Qed.
Print Assumptions C18_leftover_safe.

Theorem C18_leftover_largest : forall page mmapStart maxUsed rem, 0 <= page ->
  setMmapStart page mmapStart = Some maxUsed -> 32 <= rem < mmapStart ->
  exists k, leftover maxUsed rem = Some k /\ greatest_below bucketSizes rem k.
Proof.
  intros page m mu rem P H R. destruct (setMmap_ok page m P mu H) as (Q & L).
  apply (leftover_greatest mu m); auto. lia.
Qed.
Print Assumptions C18_leftover_largest.

(** Every class is a multiple of the 16-byte alignment, and the classes increase. *)
Theorem C18_classes : (forall k b, nth_error bucketSizes k = Some b -> b mod 16 = 0 /\ 32 <= b) /\
  (forall i j a b, (i < j)%nat -> nth_error bucketSizes i = Some a -> nth_error bucketSizes j = Some b -> a < b).
Proof.
  split; [|exact sizes_incr]. intros k b H. split; [|apply (sizes_range k b H)].
  apply nth_error_In in H.
  assert (F : forallb (fun b => b mod 16 =? 0) bucketSizes = true) by (vm_compute; reflexivity).
  rewrite forallb_forall in F. apply Z.eqb_eq. apply F. exact H.
Qed.
Print Assumptions C18_classes.

(** The default threshold (heap.cfa:63, 512 KiB + 1): a 100-byte request takes the class of 128 bytes (112 + header),
    a 70000-byte one takes 73728, a request just below the threshold takes the class above it. *)
Example C18_example : setMmapStart 4096 524289 = Some 74%nat /\
  option_map (fun k => nth k bucketSizes 0) (choose 524289 74 70000) = Some 73728 /\
  option_map (fun k => nth k bucketSizes 0) (choose 524289 74 524272) = Some 524304 /\
  choose 524289 74 524273 = None /\
  option_map (fun k => nth k bucketSizes 0) (leftover 74 1000) = Some 896.
Proof. vm_compute. repeat split. Qed.

Example C18_example_lookup : option_map (fun k => nth k bucketSizes 0) (choose 524289 74 100) = Some 128 /\
  option_map (fun k => nth k bucketSizes 0) (choose 524289 74 0) = Some 32.
Proof.
  unfold choose. change ((100 + storage) mod 2 ^ 64) with 116. change ((0 + storage) mod 2 ^ 64) with 16.
  change (116 <? 524289) with true. change (16 <? 524289) with true.
  change (116 <? LookupSizes) with true. change (16 <? LookupSizes) with true. cbv iota.
  rewrite !lookup_search by (unfold LookupSizes, storage; lia). vm_compute. split; reflexivity.
Qed.
