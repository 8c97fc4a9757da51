(** What a program may expect of an allocator: the live blocks, keyed by address, with their size, alignment, zero-fill
    property and the bytes whose value the program can rely on. *)
From Coq Require Import ZArith Bool.
From Verif.HeapAlloc Require Import Model.
Local Open Scope Z_scope.

Record alloc := Al { asz : Z; aal : Z; azf : bool; acont : Z -> option Z }.
Definition live := Z -> option alloc.

Definition none : live := fun _ => None.
Definition add (A : live) (a : Z) (x : alloc) : live := fun y => if y =? a then Some x else A y.
Definition del (A : live) (a : Z) : live := fun y => if y =? a then None else A y.

(** contents of fresh, zeroed and reallocated blocks *)
Definition fresh : Z -> option Z := fun _ => None.
Definition zeros : Z -> option Z := fun _ => Some 0.
Definition moved (x : alloc) : Z -> option Z :=
  fun i => if i <? asz x then acont x i else if azf x then Some 0 else None.
(** the alignment promised: none beyond the minimum for an empty block *)
Definition al_of (al n : Z) : Z := if n =? 0 then 16 else al.

(** the live blocks after call [o] returned [r] *)
Definition next (A : live) (o : op) (r : option Z) : live :=
  match o, r with
  | Malloc n, Some a => add A a (Al n 16 false fresh)
  | Calloc d e, Some a => add A a (Al (d * e) 16 true zeros)
  | Memalign al n, Some a => add A a (Al n (al_of al n) false fresh)
  | Cmemalign al d e, Some a => add A a (Al (d * e) (al_of al (d * e)) true zeros)
  | Resize a n, Some a' => add (del A a) a' (Al n 16 false fresh)
  | ResizeA a al n, Some a' => add (del A a) a' (Al n (al_of al n) false fresh)
  | Realloc a n, Some a' =>
      match A a with
      | Some x => add (del A a) a' (Al n (al_of (aal x) n) (azf x) (moved x))
      | None => add A a' (Al n 16 false fresh)
      end
  | ReallocA a al n, Some a' =>
      match A a with
      | Some x => add (del A a) a' (Al n (al_of al n) (azf x) (moved x))
      | None => add A a' (Al n (al_of al n) false fresh)
      end
  | Free a, _ => del A a
  | Write a i v, _ =>
      match A a with
      | Some x => add A a (Al (asz x) (aal x) (azf x) (fun j => if j =? i then Some v else acont x j))
      | None => A
      end
  | _, _ => A
  end.

(** a new address is not the address of another live block *)
Definition is_new (A : live) (o : op) (r : option Z) : Prop :=
  match o, r with
  | Malloc _, Some a | Calloc _ _, Some a | Memalign _ _, Some a | Cmemalign _ _ _, Some a => A a = None
  | Resize b _, Some a | ResizeA b _ _, Some a | Realloc b _, Some a | ReallocA b _ _, Some a => a = b \/ A a = None
  | _, _ => True
  end.

(** proper use: pointers are null or live, stores stay inside the block, and requests with their overhead are
    representable ([page] the page size) *)
Definition handle (A : live) (a : Z) : Prop := a = 0 \/ A a <> None.
Definition size_ok (page n al : Z) : Prop := 0 <= n /\ 0 <= al /\ n + al + 16 + page < 2 ^ 64.
Definition usage (page : Z) (A : live) (o : op) : Prop :=
  match o with
  | Malloc n => size_ok page n 0
  | Calloc d e => 0 <= d /\ 0 <= e /\ size_ok page (d * e) 0
  | Memalign al n => size_ok page n al
  | Cmemalign al d e => 0 <= d /\ 0 <= e /\ size_ok page (d * e) al
  | Resize a n => handle A a /\ size_ok page n 0
  | Realloc a n => handle A a /\ size_ok page n (match A a with Some x => aal x | None => 0 end)
  | ResizeA a al n | ReallocA a al n => handle A a /\ size_ok page n al
  | Free a => handle A a
  | Write a i _ => exists x, A a = Some x /\ 0 <= i < asz x
  | _ => True
  end.
