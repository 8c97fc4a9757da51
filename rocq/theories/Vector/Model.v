(** vector and heap_allocator: libcfa/src/collections/vector.hfa, vector.cfa. size_t is an integer below 2^64; sz is sizeof(T).
    realloc never fails; a block holds (bytes / sz) elements, new ones raw. None: access outside the block, or reading or destroying a raw element. *)
From Coq Require Import ZArith List Bool.
From Verif.Vector Require Import Spec.
Import ListNotations.
Open Scope Z_scope.
Definition W : Z := 2 ^ 64.
Inductive cell := Raw | Val (x : Z).
(** vector.hfa 22-27, 75-80: the block, capacity, size *)
Record vec := V { blk : list cell; cap : Z; size : Z }.
(** vector.cfa 27-32, 97-102 *)
Definition new : vec := V [] 0 0.
Definition realloc (b : list cell) (bytes sz : Z) : list cell :=
  let n := Z.to_nat (bytes / sz) in firstn n b ++ repeat Raw (n - length b).
(** realloc_storage, vector.cfa 125-134 *)
Definition grow (sz : Z) (v : vec) (n : Z) : vec :=
  if cap v <? n then let c := (2 * n) mod W in V (realloc (blk v) ((c * sz) mod W) sz) c (size v) else v.
(** an access at index i of the block *)
Definition rd (v : vec) (i : Z) : option Z := if i <? 0 then None else match nth_error (blk v) (Z.to_nat i) with Some (Val x) => Some x | _ => None end.
Definition wr (v : vec) (i : Z) (c : cell) : option vec :=
  if (i <? 0) || (Z.of_nat (length (blk v)) <=? i) then None else Some (V (put (blk v) (Z.to_nat i) c) (cap v) (size v)).
(** push_back 58-64, pop_back 66-71 *)
Definition push_back (sz : Z) (v : vec) (x : Z) : option vec :=
  match wr (grow sz v ((size v + 1) mod W)) (size v) (Val x) with Some v' => Some (V (blk v') (cap v') ((size v' + 1) mod W)) | None => None end.
Definition pop_back (v : vec) : option vec :=
  let s := (size v - 1) mod W in match rd v s with Some _ => match wr v s Raw with Some v' => Some (V (blk v') (cap v') s) | None => None end | None => None end.
(** vector.hfa 84-126; Set_ writes through begin() *)
Definition exec (sz : Z) (v : vec) (o : op) : option (vec * res) :=
  match o with
  | Push x => match push_back sz v x with Some v' => Some (v', RVoid) | None => None end
  | Pop => match pop_back v with Some v' => Some (v', RVoid) | None => None end
  | Reserve n => Some (grow sz v n, RVoid)
  | At i => match rd v (Z.of_nat i) with Some x => Some (v, RVal x) | None => None end
  | Set_ i x => match wr v (Z.of_nat i) (Val x) with Some v' => Some (v', RVoid) | None => None end
  | Front => match rd v 0 with Some x => Some (v, RVal x) | None => None end
  | Back => match rd v ((size v - 1) mod W) with Some x => Some (v, RVal x) | None => None end
  | Size => Some (v, RNum (size v))
  | IsEmpty => Some (v, RBool (size v =? 0))
  end.
Fixpoint execs (sz : Z) (v : vec) (os : list op) : option (vec * list res) :=
  match os with
  | [] => Some (v, [])
  | o :: r => match exec sz v o with
              | Some (v1, x) => match execs sz v1 r with Some (v2, xs) => Some (v2, x :: xs) | None => None end
              | None => None
              end
  end.
(** the indices destroyed by clear (73-81), in order *)
Definition clear_indices (v : vec) : list Z := map (fun _ => size v) (seq 0 (Z.to_nat (size v))).
(** destroying elements at the given indices; None when one is not an initialised element *)
Fixpoint destroy (v : vec) (is : list Z) : option vec :=
  match is with [] => Some v | i :: r => match rd v i with Some _ => match wr v i Raw with Some v' => destroy v' r | None => None end | None => None end end.
Definition clear (v : vec) : option vec := match destroy v (clear_indices v) with Some v' => Some (V (blk v') (cap v') 0) | None => None end.
(** copy_internal (86-93): the pairs (index written, index read); then the copy, of which the allocator (104-109) has made the block,
    supposing its uninitialised storage pointer happened to be null *)
Definition copy_indices (v : vec) : list (Z * Z) := map (fun _ => (size v, size v)) (seq 0 (Z.to_nat (size v))).
Fixpoint copying (t v : vec) (is : list (Z * Z)) : option vec :=
  match is with [] => Some t | (i, j) :: r => match rd v j with Some x => match wr t i (Val x) with Some t' => copying t' v r | None => None end | None => None end end.
Definition copy (sz : Z) (v : vec) : option vec := copying (V (realloc [] ((cap v * sz) mod W) sz) (cap v) (size v)) v (copy_indices v).
