(** The runtime's internal __stack, __queue and __dllist: libcfa/src/bits/collections.hfa, with the debug checks.
    A failed check or a dereference of 0p or 1p is a None result. get_next selects one link field, the same for every list. *)
From Coq Require Import List Bool Arith.
From Verif.Collections Require Import Spec.
Require Verif.Collections.Model.
From Verif.RtColl Require Import Spec.
Import ListNotations.
(** a pointer: 0p, 1p or a node; where pointers are stored: the head of a list or the link of a node *)
Inductive ptr := Nul | One | At (n : nat).
Inductive loc := Hd (l : nat) | Nx (n : nat).
Definition ptreq (a b : ptr) : bool := match a, b with Nul, Nul => true | One, One => true | At x, At y => x =? y | _, _ => false end.
Definition loceq (a b : loc) : bool := match a, b with Hd x, Hd y => x =? y | Nx x, Nx y => x =? y | _, _ => false end.
Definition upd {A} (m : loc -> A) (a : loc) (x : A) : loc -> A := fun b => if loceq b a then x else m b.
Definition updn {A} (m : nat -> A) (a : nat) (x : A) : nat -> A := fun b => if b =? a then x else m b.
(** __queue 134-137: head in mem, tail *)
Record heap := H { mem : loc -> ptr; tl : nat -> loc }.
(** constructor 148-152 for every queue; links of nodes start 0p *)
Definition init : heap := H (fun a => match a with Hd _ => One | Nx _ => Nul end) Hd.
Definition check {A} (b : bool) (r : option A) : option A := if b then r else None.
(** append 154-161 *)
Definition append (h : heap) (l n : nat) : option heap :=
  check (ptreq (mem h (Nx n)) Nul) (check (ptreq (mem h (tl h l)) One)
  (Some (H (upd (upd (mem h) (tl h l) (At n)) (Nx n) One) (updn (tl h) l (Nx n))))).
(** peek 163-172 *)
Definition peek (h : heap) (l : nat) : option ptr :=
  check (ptreq (mem h (tl h l)) One) (Some (if ptreq (mem h (Hd l)) One then Nul else mem h (Hd l))).
(** pop_head 174-189 *)
Definition pop_head (h : heap) (l : nat) : option (heap * ptr) :=
  check (ptreq (mem h (tl h l)) One)
  match mem h (Hd l) with
  | One => Some (h, Nul)
  | Nul => None
  | At x =>
      let m1 := upd (mem h) (Hd l) (mem h (Nx x)) in
      let t1 := if ptreq (m1 (Nx x)) One then updn (tl h) l (Hd l) else tl h in
      let m2 := upd m1 (Nx x) Nul in
      check (ptreq (m2 (t1 l)) One) (Some (H m2 t1, At x))
  end.
(** remove 191-206 *)
Definition remove (h : heap) (l : nat) (it : loc) : option (heap * ptr) :=
  match mem h it with
  | At x =>
      let m1 := upd (mem h) it (mem h (Nx x)) in
      let t1 := if loceq (tl h l) (Nx x) then updn (tl h) l it else tl h in
      let m2 := upd m1 (Nx x) Nul in
      check (Bool.eqb (ptreq (m2 (Hd l)) One) (loceq (Hd l) (t1 l))) (check (ptreq (m2 (t1 l)) One) (Some (H m2 t1, At x)))
  | _ => None
  end.
(** walking i links from the head, as search_entry_queue does (monitor.cfa 918) *)
Fixpoint walk (h : heap) (a : loc) (i : nat) : option loc :=
  match i with 0 => Some a | S j => match mem h a with At x => walk h (Nx x) j | _ => None end end.
(** what the caller gets; 1p is never a value to be returned *)
Definition ret {S} (h : S) (p : ptr) : option (S * res) := match p with At n => Some (h, RNode (Some n)) | Nul => Some (h, RNode None) | One => None end.
Definition qexec (h : heap) (o : qop) : option (heap * res) :=
  match o with
  | Append l n => match append h l n with Some h' => Some (h', RVoid) | None => None end
  | Peek l => match peek h l with Some p => ret h p | None => None end
  | PopHead l => match pop_head h l with Some (h', p) => ret h' p | None => None end
  | RemoveAt l i => match walk h (Hd l) i with Some it => match remove h l it with Some (h', p) => ret h' p | None => None end | None => None end
  | NonEmpty l => Some (h, RBool (negb (ptreq (mem h (Hd l)) One)))
  end.

(** __stack 86-88, constructor 99-101 *)
Definition sinit : loc -> ptr := fun _ => Nul.
(** push 104-108, pop 110-117 *)
Definition push (m : loc -> ptr) (l n : nat) : option (loc -> ptr) :=
  check (ptreq (m (Nx n)) Nul) (Some (upd (upd m (Nx n) (m (Hd l))) (Hd l) (At n))).
Definition pop (m : loc -> ptr) (l : nat) : option ((loc -> ptr) * ptr) :=
  match m (Hd l) with
  | Nul => Some (m, Nul)
  | One => None
  | At x => Some (upd (upd m (Hd l) (m (Nx x))) (Nx x) Nul, At x)
  end.
Definition sexec (m : loc -> ptr) (o : sop) : option ((loc -> ptr) * res) :=
  match o with
  | Push l n => match push m l n with Some m' => Some (m', RVoid) | None => None end
  | Pop l => match pop m l with Some (m', p) => ret m' p | None => None end
  | SNonEmpty l => Some (m, RBool (negb (ptreq (m (Hd l)) Nul)))
  end.

(** __dllist 227-230: next, prev and head are the nxt, bck and root of Verif.Collections.Model.heap *)
Notation dheap := Collections.Model.heap.
(** push_front 250-269 *)
Definition push_front (h : dheap) (l n : nat) : option dheap :=
  match Collections.Model.root h l with
  | Some r =>
      let h1 := Collections.Model.setN h n (Some r) in
      let h2 := Collections.Model.setB h1 n (Collections.Model.bck h1 r) in
      let h3 := Collections.Model.setB h2 r (Some n) in
      match Collections.Model.bck h3 n with Some p => Some (Collections.Model.setR (Collections.Model.setN h3 p (Some n)) l (Some n)) | None => None end
  | None => Some (Collections.Model.setR (Collections.Model.setB (Collections.Model.setN h n (Some n)) n (Some n)) l (Some n))
  end.
(** remove 271-284 *)
Definition dremove (h : dheap) (l n : nat) : option dheap :=
  let h1 := match Collections.Model.root h l with
            | Some r => if n =? r then (if Collections.Model.onb (Collections.Model.nxt h r) (Some r) then Collections.Model.setR h l None else Collections.Model.setR h l (Collections.Model.nxt h r)) else h
            | None => h end in
  match Collections.Model.nxt h1 n with
  | None => None
  | Some y => let h2 := Collections.Model.setB h1 y (Collections.Model.bck h1 n) in
              match Collections.Model.bck h2 n with
              | None => None
              | Some p => Some (Collections.Model.setB (Collections.Model.setN (Collections.Model.setN h2 p (Collections.Model.nxt h2 n)) n None) n None)
              end
  end.
(** move_to_front 290-293 *)
Definition move_to_front (h : dheap) (s d n : nat) : option dheap := match dremove h s n with Some h' => push_front h' d n | None => None end.
Definition dexec (h : dheap) (o : dop) : option (dheap * res) :=
  match o with
  | PushFront l n => match push_front h l n with Some h' => Some (h', RVoid) | None => None end
  | DRemove l n => match dremove h l n with Some h' => Some (h', RVoid) | None => None end
  | Move s d n => match move_to_front h s d n with Some h' => Some (h', RVoid) | None => None end
  | DNonEmpty l => Some (h, RBool (match Collections.Model.root h l with None => false | Some _ => true end))
  end.
Fixpoint execs {S O} (ex : S -> O -> option (S * res)) (h : S) (os : list O) : option (S * list res) :=
  match os with
  | [] => Some (h, [])
  | o :: r => match ex h o with Some (h1, x) => match execs ex h1 r with Some (h2, xs) => Some (h2, x :: xs) | None => None end | None => None end
  end.
