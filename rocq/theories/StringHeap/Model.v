(** The byte heap shared by strings: libcfa/src/collections/string_res.cfa.
    One heap (the default sharing context) and strings that do not share edits; each operation is atomic. A handle is a string's name, address and
    length; the handle list is in forward link order, without the header. Memory is a total map; accessing bytes outside the current byte area
    (or, while extending, reading outside the old one) is a Fault. Not modelled: private (no sharing) contexts, SHARE_EDITS,
    the width of the int sizes, the counters. *)
From Coq Require Import ZArith List Bool.
Import ListNotations.
Open Scope Z_scope.
(** NoMem: malloc aborts; Bad: the program names a string that does not exist *)
Inductive res (A : Type) := Ok (x : A) | Fault | NoMem | Bad.
Arguments Ok {A} x. Arguments Fault {A}. Arguments NoMem {A}. Arguments Bad {A}.
Definition bind {A B} (r : res A) (f : A -> res B) : res B := match r with Ok x => f x | Fault => Fault | NoMem => NoMem | Bad => Bad end.
(** None names the local string [pasting] of assign_ *)
Definition name := option nat.
Definition eqn (a b : name) : bool :=
  match a, b with Some x, Some y => (x =? y)%nat | None, None => true | _, _ => false end.
(** HandleNode, string_res.hfa:27-34 *)
Record handle := H { who : name; adr : Z; len : Z }.
(** VbyteHeap, 49-61 *)
Record heap := Heap { start : Z; fin : Z; ext : Z; init : Z; curr : Z; mem : Z -> Z; hs : list handle }.
Definition uptr (x : Z) : Z := x mod 2 ^ 64.
Definition read (m : Z -> Z) (a : Z) (n : Z) : list Z := map (fun k => m (a + Z.of_nat k)) (seq 0 (Z.to_nat n)).
Definition write (m : Z -> Z) (a : Z) (l : list Z) : Z -> Z :=
  fun x => if (a <=? x) && (x <? a + Z.of_nat (length l)) then nth (Z.to_nat (x - a)) l 0 else m x.
Definition ok (lo hi a n : Z) : bool := (n =? 0) || ((0 <=? n) && (lo <=? a) && (a + n <=? hi)).
Definition find (w : name) (l : list handle) : option handle := List.find (fun h => eqn (who h) w) l.
Definition set (w : name) (a n : Z) (l : list handle) : list handle := map (fun h => if eqn (who h) w then H w a n else h) l.
(** DeleteNode, 997-1008 *)
Definition remove (w : name) (l : list handle) : list handle := filter (fun h => negb (eqn (who h) w)) l.
(** AddThisAfter, 977-992 *)
Fixpoint add_after (h : handle) (w : name) (l : list handle) : list handle :=
  match l with [] => [] | x :: r => if eqn (who x) w then x :: h :: r else x :: add_after h w r end.
Fixpoint add_before (h : handle) (w : name) (l : list handle) : list handle :=
  match l with [] => [] | x :: r => if eqn (who x) w then h :: x :: r else x :: add_before h w r end.
(** MoveThisAfter, 1064-1082: s is moved after h, before the first following handle whose address is not below that of s *)
Fixpoint after (w : name) (l : list handle) : list handle :=
  match l with [] => [] | x :: r => if eqn (who x) w then r else after w r end.
Fixpoint stop_at (a : Z) (l : list handle) : option name :=
  match l with [] => None | x :: r => if adr x <? a then stop_at a r else Some (who x) end.
Definition move_after (s : handle) (h : name) (l : list handle) : list handle :=
  match stop_at (adr s) (after h l) with
  | None => remove (who s) l ++ [s]
  | Some i => if eqn i (who s) then l else add_before s i (remove (who s) l)
  end.
(** compaction, 1142-1169. The inner loop, 1160-1163: handles that start below limit are only adjusted; the rest remain *)
Fixpoint nested (obase nbase limit : Z) (l : list handle) : list handle * list handle :=
  match l with
  | [] => ([], [])
  | h :: r => if limit <=? adr h then ([], l)
              else let (a, b) := nested obase nbase limit r in (H (who h) (uptr (nbase + (adr h - obase))) (len h) :: a, b)
  end.
(** bytes are read from [slo, shi) and written to [dlo, dhi); f is EndVbyte *)
Fixpoint compact (fuel : nat) (slo shi dlo dhi : Z) (m : Z -> Z) (f : Z) (l : list handle) : res ((Z -> Z) * Z * list handle) :=
  match l with
  | [] => Ok (m, f, [])
  | h :: r =>
      match fuel with
      | O => Fault
      | S fu =>
          if ok slo shi (adr h) (len h) && ok dlo dhi f (len h) then
            let m1 := write m f (read m (adr h) (len h)) in
            let (a, b) := nested (adr h) f (adr h + len h) r in
            bind (compact fu slo shi dlo dhi m1 (f + len h) b) (fun '(m2, f2, b2) => Ok (m2, f2, H (who h) f (len h) :: a ++ b2))
          else Fault
      end
  end.
Definition compaction (h : heap) (slo shi : Z) : res heap :=
  bind (compact (length (hs h)) slo shi (start h) (ext h) (mem h) (start h) (hs h))
    (fun '(m, f, l) => Ok (Heap (start h) f (ext h) (init h) (curr h) m l)).
Section Heap.
(** whether the free space is below the threshold (a floating point comparison, 1196), and where malloc puts a new area *)
Variable low : Z -> Z -> bool.
Variable place : heap -> Z -> option Z.
(** extend, 1219-1236 *)
Definition extend (h : heap) (size : Z) : res heap :=
  let n := curr h + (if init h <? size then size else init h) in
  match place h n with
  | None => NoMem
  | Some a => compaction (Heap a a (a + n) (init h) n (mem h) (hs h)) (start h) (ext h)
  end.
(** garbage, 1183-1213 *)
Definition used (l : list handle) : Z := fold_right (fun h s => len h + s) 0 l.
Definition garbage (h : heap) (minreq : Z) : res heap :=
  let free := ext h - start h - used (hs h) in
  if low free (curr h) || (free <? minreq) then extend h (Z.max (curr h) minreq) else compaction h (start h) (ext h).
(** VbyteAlloc, 1014-1032 *)
Definition alloc (h : heap) (size : Z) : res (heap * Z) :=
  bind (if ext h <? fin h + size then garbage h size else Ok h) (fun h1 =>
  Ok (Heap (start h1) (fin h1 + size) (ext h1) (init h1) (curr h1) (mem h1) (hs h1), fin h1)).
Definition with_hs (h : heap) (l : list handle) : heap := Heap (start h) (fin h) (ext h) (init h) (curr h) (mem h) l.
Definition store (h : heap) (a : Z) (l : list Z) : res heap :=
  if ok (start h) (ext h) a (Z.of_nat (length l)) then Ok (Heap (start h) (fin h) (ext h) (init h) (curr h) (write (mem h) a l) (hs h)) else Fault.
(** a char * argument: bytes outside the heap, or n bytes at an address inside it *)
Inductive buffer := Bytes (l : list Z) | At (a n : Z).
Definition bsize (b : buffer) : Z := match b with Bytes l => Z.of_nat (length l) | At _ n => n end.
Definition load (h : heap) (b : buffer) : res (list Z) :=
  match b with Bytes l => Ok l | At a n => if ok (start h) (ext h) a n then Ok (read (mem h) a n) else Fault end.
Definition at_addr (b : buffer) (a : Z) : bool := match b with Bytes _ => false | At x _ => x =? a end.
Definition get (w : name) (h : heap) : res handle := match find w (hs h) with Some x => Ok x | None => Bad end.
(** the constructor from a heap, 132-143 and 408-420 or 350-363: the handle is linked before the bytes are allocated *)
Definition construct (h : heap) (w : name) (l : list Z) : res heap :=
  bind (alloc (with_hs h (hs h ++ [H w 0 0])) (Z.of_nat (length l))) (fun '(h1, a) =>
  store (with_hs h1 (set w a (Z.of_nat (length l)) (hs h1))) a l).
(** the empty constructor, 335-348 *)
Definition construct_empty (h : heap) (w : name) : res heap := Ok (with_hs h (hs h ++ [H w 0 0])).
(** the copy constructor with COPY_VALUE, 424-467 *)
Definition copy (h : heap) (w src : name) (i n : Z) : res heap :=
  bind (get src h) (fun x => Ok (with_hs h (add_after (H w (adr x + i) n) src (hs h)))).
(** append, 739-764 *)
Definition append (h : heap) (w : name) (b : buffer) : res heap :=
  bind (get w h) (fun x =>
  let clnth := len x + bsize b in
  if at_addr b (adr x + len x) then Ok (with_hs h (set w (adr x) clnth (hs h)))
  else
    bind (if adr x + len x =? fin h then bind (alloc h (bsize b)) (fun '(h1, _) => Ok h1)
          else bind (alloc h clnth) (fun '(h1, r) => bind (get w h1) (fun x1 => bind (load h1 (At (adr x1) (len x1))) (fun l =>
               store (with_hs h1 (set w r (len x1) (hs h1))) r l)))) (fun h1 =>
    bind (get w h1) (fun x1 => bind (load h1 b) (fun l => bind (store h1 (adr x1 + len x1) l) (fun h2 =>
    Ok (with_hs h2 (set w (adr x1) clnth (hs h2)))))))).
(** assign_ to a string outside any share-edit set, 556-647; assignEditSet then only moves the handle, 482-485.
    First the case 600-609 of a source in the same heap *)
Definition assign_string (h : heap) (w src : name) : res heap :=
  bind (get src h) (fun x => bind (get w h) (fun _ =>
  Ok (with_hs h (move_after (H w (adr x) (len x)) src (set w (adr x) (len x) (hs h)))))).
(** then the case 611-639; pasting is destroyed at the end *)
Definition assign_buffer (h : heap) (w : name) (b : buffer) : res heap :=
  bind (get w h) (fun _ =>
  bind (construct h None []) (fun h1 =>
  bind (append h1 None b) (fun h2 =>
  bind (get w h2) (fun x2 =>
  bind (append h2 None (At (adr x2 + len x2) 0)) (fun h3 =>
  bind (get None h3) (fun p =>
  Ok (with_hs h3 (remove None (move_after (H w (adr p) (bsize b)) None (set w (adr p) (bsize b) (hs h3))))))))))).
(** the destructor, 704-716 and 149-161 *)
Definition destroy (h : heap) (w : name) : res heap := bind (get w h) (fun _ => Ok (with_hs h (remove w (hs h)))).

Inductive op :=
  | New (x : nat) (l : list Z) | NewEmpty (x : nat) | Copy (x y : nat) (i n : nat)
  | AssignChars (x : nat) (l : list Z) | AssignString (x y : nat) | AssignPrefix (x y : nat) (n : nat)   (* assign( x, y, n ), 649-651 *)
  | AppendChars (x : nat) (l : list Z) | AppendString (x y : nat) | Destroy (x : nat).
Definition step (h : heap) (o : op) : res heap :=
  match o with
  | New x l => construct h (Some x) l
  | NewEmpty x => construct_empty h (Some x)
  | Copy x y i n => copy h (Some x) (Some y) (Z.of_nat i) (Z.of_nat n)
  | AssignChars x l => assign_buffer h (Some x) (Bytes l)
  | AssignString x y => assign_string h (Some x) (Some y)
  | AssignPrefix x y n => bind (get (Some y) h) (fun s => assign_buffer h (Some x) (At (adr s) (Z.min (len s) (Z.of_nat n))))
  | AppendChars x l => append h (Some x) (Bytes l)
  | AppendString x y => bind (get (Some y) h) (fun s => append h (Some x) (At (adr s) (len s)))
  | Destroy x => destroy h (Some x)
  end.
Fixpoint run (h : heap) (l : list op) : res heap := match l with [] => Ok h | o :: r => bind (step h o) (fun h1 => run h1 r) end.
(** the constructor of a heap with size bytes at address a, 83-100 *)
Definition new_heap (a size : Z) (m : Z -> Z) : heap := Heap a a (a + size) size size m [].
End Heap.
(** the text of a string, as read character by character (?[?], 722-725) *)
Definition text (h : heap) (x : nat) : res (option (list Z)) :=
  match find (Some x) (hs h) with
  | None => Ok None
  | Some s => if ok (start h) (ext h) (adr s) (len s) then Ok (Some (read (mem h) (adr s) (len s))) else Fault
  end.
