(** Multi-dimensional arrays: libcfa/src/collections/array.hfa. A type is its extents, strides in bytes and element size; a reference is a type and a byte offset.
    Not modelled: alignment, and address arithmetic beyond the address space. *)
From Coq Require Import ZArith List Bool.
Import ListNotations.
Open Scope Z_scope.
(** arpk( N, S, Timmed, Tbase ), 49-55; Atom is Tbase *)
Inductive ty := Atom (sz : Z) | Arpk (n s : Z) (t : ty).
Definition sizeof (t : ty) : Z := match t with Atom sz => sz | Arpk n s _ => n * s end.
(** mkar_, 183-187: the type array( TE, dims ) *)
Fixpoint mkar (sz : Z) (ds : list Z) : ty := match ds with [] => Atom sz | d :: r => Arpk d (sizeof (mkar sz r)) (mkar sz r) end.
(** enq_, 315-326 *)
Fixpoint enq (nq sq : Z) (t : ty) : ty := match t with Atom sz => Arpk nq sq (Atom sz) | Arpk n s r => Arpk n s (enq nq sq r) end.
(** subscripts: the types of index overloaded, 88-136, and all, 329-333 *)
Inductive sub := Zero | One | Signed (i : Z) | Unsigned (i : Z) | All.
Inductive out := Ref (t : ty) (off : Z) | Abort | IllTyped.
(** subcheck, subchecku 9-21 *)
Definition subcheck (debug : bool) (i n : Z) : bool := negb debug || negb ((i <? 0) || (n <=? i)).
Definition subchecku (debug : bool) (i n : Z) : bool := negb debug || negb (n <=? i).
Definition at_ (ok : bool) (t : ty) (off : Z) : out := if ok then Ref t off else Abort.
Definition subscript (debug : bool) (t : ty) (off : Z) (x : sub) : out :=
  match t with
  | Atom _ => IllTyped
  | Arpk n s r =>
      match x with
      | Zero => at_ (subcheck debug 0 n) r (off + 0 * s)
      | One => at_ (subcheck debug 1 n) r (off + 1 * s)
      | Signed i => at_ (subcheck debug i n) r (off + i * s)
      | Unsigned i => at_ (subchecku debug i n) r (off + i * s)
      | All => Ref (enq n s r) off
      end
  end.
(** a[x][y]..., and a[[x,y,...]], 229-297 *)
Fixpoint subscripts (debug : bool) (t : ty) (off : Z) (xs : list sub) : out :=
  match xs with [] => Ref t off | x :: r => match subscript debug t off x with Ref t' o => subscripts debug t' o r | e => e end end.
(** len, 138-140 *)
Definition len (t : ty) : option Z := match t with Arpk n _ _ => Some n | _ => None end.
(** offsets of the elements constructed by ?{}, 162-166, and destroyed by ^?{}, 168-176, in order *)
Fixpoint ctor (t : ty) (off : Z) : list Z :=
  match t with Atom _ => [off] | Arpk n s r => flat_map (fun i => ctor r (off + Z.of_nat i * s)) (seq 0 (Z.to_nat n)) end.
Fixpoint dtor (t : ty) (off : Z) : list Z :=
  match t with Atom _ => [off] | Arpk n s r => flat_map (fun i => dtor r (off + (n - Z.of_nat i - 1) * s)) (seq 0 (Z.to_nat n)) end.
