(** Model of the size classes of the allocator, libcfa/src/heap.cfa: the table of bucket sizes, the hand-coded binary
    search, the filling of the fast lookup table, the choice of a bucket in doMalloc and in manager_extend, and
    setMmapStart.  [unsigned int] parameters are reduced modulo 2^32 and [size_t] arithmetic modulo 2^64, as in C.
    A read outside the table of bucket sizes is [None].  Assumed configuration: 64-bit, sizeof(Heap.Storage) = 16
    (heap.cfa:222-245, two words), FASTLOOKUP defined (heap.cfa:42). *)
From Coq Require Import List ZArith Bool.
Import ListNotations.
Local Open Scope Z_scope.

(** sizeof(Heap.Storage), heap.cfa:222-245 *)
Definition storage : Z := 16.

(** heap.cfa:325-343 *)
Definition bucketSizes : list Z :=
  [16 + storage; 32 + storage; 48 + storage; 64 + storage;
   96 + storage; 112 + storage; 128 + storage;
   160; 192; 224; 256 + storage;
   320; 384; 448; 512 + storage;
   640; 768; 896; 1024 + storage;
   1536; 2048 + storage;
   2560; 3072; 3584; 4096 + storage;
   6144; 8192 + storage;
   9216; 10240; 11264; 12288; 13312; 14336; 15360; 16384 + storage;
   18432; 20480; 22528; 24576; 26624; 28672; 30720; 32768 + storage;
   36864; 40960; 45056; 49152; 53248; 57344; 61440; 65536 + storage;
   73728; 81920; 90112; 98304; 106496; 114688; 122880; 131072 + storage;
   147456; 163840; 180224; 196608; 212992; 229376; 245760; 262144 + storage;
   294912; 327680; 360448; 393216; 425984; 458752; 491520; 524288 + storage;
   655360; 786432; 917504; 1048576 + storage;
   1179648; 1310720; 1441792; 1572864; 1703936; 1835008; 1966080; 2097152 + storage;
   2621440; 3145728; 3670016; 4194304 + storage].

(** heap.cfa:218 *)
Definition NoBucketSizes : nat := 91.
(** heap.cfa:310 *)
Definition LookupSizes : Z := 65536 + storage.

(** heap.cfa:117-128; the loop carries fuel, [None] for a read out of bounds or no fuel left *)
Fixpoint bsearch_loop (fuel : nat) (key : Z) (vals : list Z) (l h : nat) : option nat :=
  match fuel with
  | O => None
  | S f =>
      if Nat.ltb l h then
        let m := Nat.div (l + h) 2 in
        match nth_error vals m with
        | None => None
        | Some v => if v <? key then bsearch_loop f key vals (m + 1) h else bsearch_loop f key vals l m
        end
      else Some l
  end.
(** heap.cfa:117: the key is an [unsigned int] *)
Definition Bsearchl (key : Z) (vals : list Z) (dim : nat) : option nat :=
  bsearch_loop (S dim) (key mod 2 ^ 32) vals 0 dim.

(** heap.cfa:402-408: [n] more iterations from index [i]; the table is a function, [None] where unset *)
Fixpoint fill (n : nat) (i : Z) (idx : nat) (t : Z -> option nat) : option (Z -> option nat) :=
  match n with
  | O => Some t
  | S n' =>
      match nth_error bucketSizes idx with
      | None => None
      | Some b =>
          let idx' := if b <? i then S idx else idx in
          fill n' (i + 1) idx' (fun x => if x =? i then Some idx' else t x)
      end
  end.
(** heap.cfa:402-408: the table the constructor leaves *)
Definition lookup_table : option (Z -> option nat) := fill (Z.to_nat LookupSizes) 0 0 (fun _ => None).
(** a subscript of the table, heap.cfa:966 *)
Definition lookup (n : Z) : option nat := match lookup_table with Some t => t n | None => None end.

(** setMmapStart, heap.cfa:690-700 (and the constructor, :380-385): [None] when the value is refused, else the
    new maxBucketsUsed *)
Definition setMmapStart (page value : Z) : option nat :=
  if (value <? page) || (nth (NoBucketSizes - 1) bucketSizes 0 <? value) then None
  else Bsearchl value bucketSizes NoBucketSizes.

(** doMalloc, heap.cfa:948 and 964-970: the bucket of a request of [size] bytes; [None] when the request goes to mmap *)
Definition choose (mmapStart : Z) (maxUsed : nat) (size : Z) : option nat :=
  let tsize := (size + storage) mod 2 ^ 64 in
  if tsize <? mmapStart then
    if tsize <? LookupSizes then lookup tsize else Bsearchl tsize bucketSizes maxUsed
  else None.

(** manager_extend, heap.cfa:860-873: the bucket that receives the [rem] bytes left in the buffer; [None] when they
    are ignored.  The [else] missing after the lookup (:864-866) means the binary search always decides.  [freeHead
    -= 1] from bucket 0 would leave the array; here it would give bucket 0 and the theorem shows it cannot happen. *)
Definition leftover (maxUsed : nat) (rem : Z) : option nat :=
  if rem mod 2 ^ 32 <? nth 0 bucketSizes 0 then None
  else
    match Bsearchl rem bucketSizes maxUsed with
    | None => None
    | Some b => Some (if rem <? nth b bucketSizes 0 then pred b else b)
    end.
