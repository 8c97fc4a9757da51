(** Model of the allocator libcfa/src/heap.cfa: extension of the heap, doMalloc, doFree, aligned allocation, calloc,
    resize and realloc (with and without alignment), the query routines and the tuning calls.

    State.  Addresses are integers.  The program's bytes are [data]; the allocator's 16-byte headers are kept in a
    separate map [hdr] from the address of a header to its decoded contents (the three sticky bits of heap.cfa:742-757
    are decoded into constructors and a flag; the theorem on bookkeeping shows that no header the allocator reads lies
    inside bytes given to the program, which is what makes the separation faithful).  The free list and the return
    list of each bucket (heap.cfa:247-260), linked through the headers of their blocks, are Coq lists with the same
    order; a block on a list has the header [Link].  There is one heap manager per index [t]; binding of threads to
    managers (heap.cfa:413-520), statistics, tracing and the debug-only pointer checks are not modelled.
    Each operation is one step: the free lists are private to the owner, return lists and the master are under spin
    locks.  [dbg] is __CFA_DEBUG__ (scrubbing).  [page] is __page_size.

    System calls.  sbrk returns the current end of the heap, contiguous growth; mmap returns the address [os] chosen by
    the environment.  If the environment's choice would overlap storage the process already has, the call counts as
    refused, and the allocator aborts as for any refusal (heap.cfa:826-829, 1034-1040).  Addresses do not wrap. *)
From Coq Require Import List ZArith Bool Arith.
From Verif.HeapBuckets Require Import Model.
Import ListNotations.
Local Open Scope Z_scope.

(** The first word of a real header, heap.cfa:226-232: the home bucket of manager [t], or the size of an mmapped block *)
Inductive word := Home (t k : nat) | Map (n : Z).
(** heap.cfa:222-245 and the sticky bits :742-757 *)
Inductive header :=
| Real (w : word) (zf : bool) (size : Z)
| Fake (alignment offset : Z)
| Link
| Junk.

Record st := St {
  heapBegin : Z; heapEnd : Z; heapRem : Z;            (* heap.cfa:287-289 *)
  expand : Z; mmapStart : Z; maxUsed : nat;           (* heap.cfa:291-293 *)
  buf : nat -> Z; res : nat -> Z;                     (* heapBuffer, heapReserve of each manager, heap.cfa:263-264 *)
  free : nat -> nat -> list Z;                        (* freeLists[k].freeList of manager t, heap.cfa:255 *)
  ret : nat -> nat -> list Z;                         (* freeLists[k].returnList, heap.cfa:252 *)
  hdr : Z -> header; data : Z -> Z;
  maps : list (Z * Z) }.                              (* the mappings the process has *)

Definition set_master (s : st) (e r : Z) : st :=
  St (heapBegin s) e r (expand s) (mmapStart s) (maxUsed s) (buf s) (res s) (free s) (ret s) (hdr s) (data s) (maps s).
Definition set_cfg (s : st) (x m : Z) (u : nat) : st :=
  St (heapBegin s) (heapEnd s) (heapRem s) x m u (buf s) (res s) (free s) (ret s) (hdr s) (data s) (maps s).
Definition upd {A} (f : nat -> A) (i : nat) (a : A) : nat -> A := fun j => if Nat.eqb j i then a else f j.
Definition set_buf (s : st) (t : nat) (b r : Z) : st :=
  St (heapBegin s) (heapEnd s) (heapRem s) (expand s) (mmapStart s) (maxUsed s) (upd (buf s) t b) (upd (res s) t r)
     (free s) (ret s) (hdr s) (data s) (maps s).
Definition set_free (s : st) (t k : nat) (l : list Z) : st :=
  St (heapBegin s) (heapEnd s) (heapRem s) (expand s) (mmapStart s) (maxUsed s) (buf s) (res s)
     (upd (free s) t (upd (free s t) k l)) (ret s) (hdr s) (data s) (maps s).
Definition set_ret (s : st) (t k : nat) (l : list Z) : st :=
  St (heapBegin s) (heapEnd s) (heapRem s) (expand s) (mmapStart s) (maxUsed s) (buf s) (res s)
     (free s) (upd (ret s) t (upd (ret s t) k l)) (hdr s) (data s) (maps s).
Definition set_hdr (s : st) (a : Z) (h : header) : st :=
  St (heapBegin s) (heapEnd s) (heapRem s) (expand s) (mmapStart s) (maxUsed s) (buf s) (res s) (free s) (ret s)
     (fun x => if x =? a then h else hdr s x) (data s) (maps s).
Definition set_data (s : st) (d : Z -> Z) : st :=
  St (heapBegin s) (heapEnd s) (heapRem s) (expand s) (mmapStart s) (maxUsed s) (buf s) (res s) (free s) (ret s)
     (hdr s) d (maps s).
Definition set_maps (s : st) (m : list (Z * Z)) : st :=
  St (heapBegin s) (heapEnd s) (heapRem s) (expand s) (mmapStart s) (maxUsed s) (buf s) (res s) (free s) (ret s)
     (hdr s) (data s) m.

(** memset and memcpy (C library) *)
Definition within (x a n : Z) : bool := (a <=? x) && (x <? a + n).
Definition memset (s : st) (a v n : Z) : st := set_data s (fun x => if within x a n then v else data s x).
Definition memcpy (s : st) (dst src n : Z) : st :=
  set_data s (fun x => if within x dst n then data s (src + (x - dst)) else data s x).

(** ceiling2, bitmanip.hfa:114-115, on values that do not wrap (Verif.Bits, C06); ceiling, math.hfa, likewise *)
Definition ceiling2 (n align : Z) : Z := (n + (align - 1)) / align * align.

Inductive result (A : Type) := Ok (a : A) | Abort | Fault.
Arguments Ok {A} a. Arguments Abort {A}. Arguments Fault {A}.
Definition bind {A B} (m : result A) (f : A -> result B) : result B :=
  match m with Ok a => f a | Abort => Abort | Fault => Fault end.
Notation "'do' x <- m ; e" := (bind m (fun x => e)) (at level 200, x pattern, m at level 100, e at level 200).

(** bucketSizes[k], the blockSize of a free list (heap.cfa:463) *)
Definition bs (k : nat) : Z := nth k bucketSizes 0.
(** sizeof(Heap.Storage) = libAlign() = 16 *)
Definition lib : Z := 16.
(** heap.cfa:897 *)
Definition SCRUB_SIZE : Z := 1024.
(** heap.cfa:900 *)
Definition SCRUB : Z := 255.

Definition apart (m : Z * Z) (a n : Z) : bool := (fst m + snd m <=? a) || (a + n <=? fst m).

Section Alloc.
  Variables (page : Z) (dbg : bool).

  (** master_extend, heap.cfa:813-846 *)
  Definition master_extend (size : Z) (s : st) : result (st * Z) :=
    if heapRem s - size <? 0 then
      let increase := ceiling2 (if expand s <? size then size else expand s) lib in
      if forallb (fun m => apart m (heapEnd s + heapRem s) increase) (maps s) then
        Ok (set_master s (heapEnd s + size) (heapRem s + increase - size), heapEnd s)
      else Abort
    else Ok (set_master s (heapEnd s + size) (heapRem s - size), heapEnd s).

  (** heap.cfa:857-873: what is left of the buffer goes to a bucket (or is ignored) *)
  Definition file_leftover (t : nat) (s : st) : st :=
    match leftover (maxUsed s) (res s t) with
    | Some k => set_hdr (set_free s t k (buf s t :: free s t k)) (buf s t) Link
    | None => s
    end.

  (** manager_extend, heap.cfa:850-887 *)
  Definition manager_extend (t : nat) (size : Z) (s : st) : result (st * Z) :=
    if res s t - size <? 0 then
      let s1 := file_leftover t s in
      let increase := ceiling2 (if expand s / 10 <? size then size else expand s / 10) lib in
      do (s2, b) <- master_extend increase s1;
      Ok (set_buf s2 t (b + size) (increase - size), b)
    else Ok (set_buf s t (buf s t + size) (res s t - size), buf s t).

  (** doMalloc, heap.cfa:982-1020: a block of bucket [k] *)
  Definition take (t k : nat) (s : st) : result (st * Z) :=
    match free s t k with
    | b :: r => Ok (set_free s t k r, b)
    | [] =>
        match ret s t k with
        | b :: r => Ok (set_free (set_ret s t k []) t k r, b)
        | [] =>
            do (s', b) <- manager_extend t (bs k) s;
            Ok (if dbg then memset s' (b + lib) SCRUB (Z.min SCRUB_SIZE (bs k - lib)) else s', b)
        end
    end.

  (** mmap, called at heap.cfa:1030 *)
  Definition sys_mmap (os n : Z) (s : st) : result st :=
    if (0 <? os) && (os mod page =? 0) && apart (heapBegin s, heapEnd s + heapRem s - heapBegin s) os n &&
       forallb (fun m => apart m os n) (maps s)
    then Ok (memset (set_maps s ((os, n) :: maps s)) os 0 n)
    else Abort.

  (** doMalloc, heap.cfa:940-1074; [Null] is 0p *)
  Definition doMalloc (t : nat) (size os : Z) (s : st) : result (st * option Z) :=
    let tsize := (size + lib) mod 2 ^ 64 in
    if tsize <? mmapStart s then
      match choose (mmapStart s) (maxUsed s) size with
      | None => Fault
      | Some k =>
          do (s', b) <- take t k s;
          Ok (set_hdr s' b (Real (Home t k) false size), Some (b + lib))
      end
    else if 2 ^ 64 - 1 - page <? size then Ok (s, None)
    else
      let n := ceiling2 tsize page in
      do s1 <- sys_mmap os n s;
      let s2 := if dbg then memset s1 (os + lib) SCRUB (Z.min SCRUB_SIZE (n - lib)) else s1 in
      Ok (set_hdr s2 os (Real (Map n) false size), Some (os + lib)).

  (** headers, heap.cfa:771-810, with fakeHeader :760-769: address and contents of the real header, and alignment *)
  Definition headers (s : st) (a : Z) : result (Z * word * bool * Z * Z) :=
    match hdr s (a - lib) with
    | Real w z n => Ok (a - lib, w, z, n, lib)
    | Fake al off =>
        match hdr s (a - lib - off) with
        | Real w z n => Ok (a - lib - off, w, z, n, al)
        | _ => Fault
        end
    | _ => Fault
    end.

  (** [size] out of headers, heap.cfa:787 and 793 *)
  Definition bsize (w : word) : Z := match w with Home _ k => bs k | Map n => n end.
  (** DataStorage, heap.cfa:718 *)
  Definition dataStorage (w : word) (a h : Z) : Z := bsize w - (a - h).

  Fixpoint remove1 (m : Z * Z) (l : list (Z * Z)) : list (Z * Z) :=
    match l with
    | [] => []
    | x :: r => if (fst x =? fst m) && (snd x =? snd m) then r else x :: remove1 m r
    end.

  (** doFree, heap.cfa:1076-1189; scrubbing :1131-1140 *)
  Definition scrub (h n : Z) (s : st) : st :=
    if negb dbg then s
    else
      let a := h + lib in let d := n - lib in
      if d <=? SCRUB_SIZE * 2 then memset s a SCRUB d
      else memset (memset s a SCRUB SCRUB_SIZE) (a + d - SCRUB_SIZE) SCRUB SCRUB_SIZE.
  Definition doFree (t : nat) (a : Z) (s : st) : result st :=
    do (h, w, z, n, al) <- headers s a;
    match w with
    | Map m => Ok (set_hdr (set_maps s (remove1 (h, m) (maps s))) h Junk)
    | Home o k =>
        let s1 := scrub h (bs k) s in
        if Nat.eqb t o then Ok (set_hdr (set_free s1 o k (h :: free s1 o k)) h Link)
        else Ok (set_hdr (set_ret s1 o k (h :: ret s1 o k)) h Link)
    end.

  (** checkAlign, heap.cfa:721-726, is_pow2, bitmanip.hfa:87 *)
  Definition alignOk (al : Z) : bool := (lib <=? al) && (Z.land al (al - 1) =? 0).

  (** memalignNoStats, heap.cfa:1241-1278; the address from doMalloc is not tested for 0p *)
  Definition memalign (t : nat) (al size os : Z) (s : st) : result (st * option Z) :=
    if negb (alignOk al) then Abort
    else if (al <=? lib) || (size =? 0) then doMalloc t size os s
    else
      let offset := al - lib + lib in
      do (s1, r) <- doMalloc t ((size + offset) mod 2 ^ 64) os s;
      match r with
      | None => Fault
      | Some addr =>
          let user := ceiling2 (addr + lib) al in
          match hdr s1 (addr - lib) with
          | Real w z _ =>
              let s2 := set_hdr s1 (addr - lib) (Real w z size) in
              Ok (set_hdr s2 (user - lib) (Fake al (user - lib - (addr - lib))), Some user)
          | _ => Fault
          end
      end.

  (** calloc, heap.cfa:1300-1324, and cmemalign :1441-1468: clear and mark the block at [a] *)
  Definition zero_block (a size : Z) (s : st) : result (st * option Z) :=
    do (h, w, z, n, al) <- headers s a;
    let mapped := match w with Map _ => true | _ => false end in
    let s1 := if negb dbg && mapped then s else memset s a 0 size in
    Ok (set_hdr s1 h (Real w true n), Some a).
  Definition calloc (t : nat) (dim elem os : Z) (s : st) : result (st * option Z) :=
    let size := (dim * elem) mod 2 ^ 64 in
    do (s1, r) <- doMalloc t size os s;
    match r with None => Ok (s1, None) | Some a => zero_block a size s1 end.
  Definition cmemalign (t : nat) (al dim elem os : Z) (s : st) : result (st * option Z) :=
    let size := (dim * elem) mod 2 ^ 64 in
    do (s1, r) <- memalign t al size os s;
    match r with None => Ok (s1, None) | Some a => zero_block a size s1 end.

  (** the test for changing a block in place, heap.cfa:1344, 1381, 1691 *)
  Definition fits (size odsize : Z) : bool := (size <=? odsize) && (odsize <=? (size * 2) mod 2 ^ 64).

  (** resize, heap.cfa:1331-1361 *)
  Definition resize (t : nat) (a size os : Z) (s : st) : result (st * option Z) :=
    if a =? 0 then doMalloc t size os s
    else
      do (h, w, z, n, al) <- headers s a;
      if (al =? lib) && fits size (dataStorage w a h) then Ok (set_hdr s h (Real w false size), Some a)
      else do s1 <- doFree t a s; doMalloc t size os s1.

  (** heap.cfa:1407-1416 and 1755-1764: the new storage at [na] takes over from [a]; 0p is dereferenced *)
  Definition move (t : nat) (a size osize : Z) (ozf : bool) (r : st * option Z) : result (st * option Z) :=
    match snd r with
    | None => Fault
    | Some na =>
        do (h, w, z, n, al) <- headers (fst r) na;
        do s2 <- doFree t a (memcpy (fst r) na a (Z.min osize size));
        if ozf then
          let s3 := set_hdr s2 h (Real w true n) in
          Ok (if osize <? size then memset s3 (na + osize) 0 (size - osize) else s3, Some na)
        else Ok (s2, Some na)
    end.

  (** realloc, heap.cfa:1366-1419 *)
  Definition realloc (t : nat) (a size os : Z) (s : st) : result (st * option Z) :=
    if a =? 0 then doMalloc t size os s
    else
      do (h, w, z, n, al) <- headers s a;
      if fits size (dataStorage w a h) then
        let s1 := set_hdr s h (Real w z size) in
        Ok (if z && (n <? size) then memset s1 (a + n) 0 (size - n) else s1, Some a)
      else
        do r <- (if al <=? lib then doMalloc t size os s else memalign t al size os s);
        move t a size n z r.

  (** the "lucky match" test, heap.cfa:1681-1684 and 1732-1735 *)
  Definition lucky (a oalign nalign : Z) : bool :=
    (a mod nalign =? 0) && ((oalign <=? nalign) || ((nalign <=? oalign) && (oalign <=? 256))).

  (** resize with alignment, heap.cfa:1666-1712 *)
  Definition resizeA (t : nat) (a nalign size os : Z) (s : st) : result (st * option Z) :=
    if a =? 0 then memalign t nalign size os s
    else
      match hdr s (a - lib) with
      | Fake oalign off =>
          if negb (alignOk nalign) then Abort
          else if lucky a oalign nalign then
            let s1 := set_hdr s (a - lib) (Fake nalign off) in
            do (h, w, z, n, al) <- headers s1 a;
            if fits size (dataStorage w a h) then Ok (set_hdr s1 h (Real w false size), Some a)
            else do s2 <- doFree t a s1; memalign t nalign size os s2
          else do s2 <- doFree t a s; memalign t nalign size os s2
      | Real _ _ _ =>
          if nalign =? lib then resize t a size os s
          else do s2 <- doFree t a s; memalign t nalign size os s2
      | _ => Fault
      end.

  (** realloc with alignment, heap.cfa:1715-1766 *)
  Definition reallocA (t : nat) (a nalign size os : Z) (s : st) : result (st * option Z) :=
    if a =? 0 then memalign t nalign size os s
    else
      let slow :=
        do (h, w, z, n, al) <- headers s a;
        do r <- memalign t nalign size os s;
        move t a size n z r in
      match hdr s (a - lib) with
      | Fake oalign off =>
          if negb (alignOk nalign) then Abort
          else if lucky a oalign nalign then
            realloc t a size os (set_hdr s (a - lib) (Fake nalign off))
          else slow
      | Real _ _ _ => if nalign =? lib then realloc t a size os s else slow
      | _ => Fault
      end.

  (** malloc_alignment, malloc_zero_fill, malloc_size, malloc_usable_size, heap.cfa:1514-1560 *)
  Definition malloc_alignment (s : st) (a : Z) : Z :=
    if a =? 0 then lib else match hdr s (a - lib) with Fake al _ => al | _ => lib end.
  Definition realHdr (s : st) (a : Z) : header :=
    match hdr s (a - lib) with Fake _ off => hdr s (a - lib - off) | h => h end.
  Definition malloc_zero_fill (s : st) (a : Z) : bool :=
    if a =? 0 then false else match realHdr s a with Real _ z _ => z | _ => false end.
  Definition malloc_size (s : st) (a : Z) : Z :=
    if a =? 0 then 0 else match realHdr s a with Real _ _ n => n | _ => 0 end.
  Definition malloc_usable_size (s : st) (a : Z) : result Z :=
    if a =? 0 then Ok 0
    else do (h, w, z, n, al) <- headers s a; Ok (dataStorage w a h).

  (** The calls.  [t] is the calling thread's heap manager and [os] the address mmap would return. *)
  Inductive op :=
  | Malloc (n : Z) | Calloc (dim elem : Z) | Memalign (al n : Z) | Cmemalign (al dim elem : Z)
  | Resize (a n : Z) | Realloc (a n : Z) | ResizeA (a al n : Z) | ReallocA (a al n : Z)
  | Free (a : Z)
  | Write (a i v : Z)                 (* the program stores v in byte i of block a *)
  | Threshold (v : Z) | TopPad (v : Z).

  (** mallopt, heap.cfa:1619-1629; free :1502-1511 *)
  Definition step (s : st) (t : nat) (os : Z) (o : op) : result (st * option Z) :=
    match o with
    | Malloc n => doMalloc t n os s
    | Calloc d e => calloc t d e os s
    | Memalign al n => memalign t al n os s
    | Cmemalign al d e => cmemalign t al d e os s
    | Resize a n => resize t a n os s
    | Realloc a n => realloc t a n os s
    | ResizeA a al n => resizeA t a al n os s
    | ReallocA a al n => reallocA t a al n os s
    | Free a => if a =? 0 then Ok (s, None) else do s1 <- doFree t a s; Ok (s1, None)
    | Write a i v => Ok (memset s (a + i) v 1, None)
    | Threshold v =>
        if v <? 0 then Ok (s, None)
        else match setMmapStart page v with
             | Some m => Ok (set_cfg s (expand s) v m, None)
             | None => Ok (s, None)
             end
    | TopPad v => if v <? 0 then Ok (s, None) else Ok (set_cfg s (ceiling2 v page) (mmapStart s) (maxUsed s), None)
    end.

  (** heapMasterCtor, heap.cfa:363-411, and getHeap :448-466: [b] is the aligned start of the heap *)
  Definition init (b x m : Z) (u : nat) : st :=
    St b b 0 x m u (fun _ => 0) (fun _ => 0) (fun _ _ => []) (fun _ _ => []) (fun _ => Junk) (fun _ => 0) [].

  (** The remaining entry points in terms of the above: aalloc heap.cfa:1293, amemalign :1435, reallocarray :1423 and
      :1769, valloc :1489, pvalloc :1496 (posix_memalign and aligned_alloc are memalign) *)
  Definition aalloc (t : nat) (dim elem os : Z) (s : st) := doMalloc t ((dim * elem) mod 2 ^ 64) os s.
  Definition amemalign (t : nat) (al dim elem os : Z) (s : st) := memalign t al ((dim * elem) mod 2 ^ 64) os s.
  Definition reallocarray (t : nat) (a dim elem os : Z) (s : st) := realloc t a ((dim * elem) mod 2 ^ 64) os s.
  Definition valloc (t : nat) (n os : Z) (s : st) := memalign t page n os s.
  Definition pvalloc (t : nat) (n os : Z) (s : st) := memalign t page (ceiling2 n page mod 2 ^ 64) os s.
End Alloc.
