(** Layout of generic types: the layout functions that the compiler generates, src/GenPoly/Box.cpp:68-353, and the use of sizeof and alignof, 1946-1956 and 2231-2261. Sizes are of type unsigned long.
    Not modelled: names, bit-fields (not allowed here: src/Validate/GenericParameter.cpp:155-161), attributes such as aligned or packed, static assertions on dimensions, the passing of the parameters. *)
From Coq Require Import ZArith List Bool.
Import ListNotations.
Open Scope Z_scope.
Definition two64 : Z := 2 ^ 64.
Definition w (x : Z) : Z := x mod two64.
(** Types. Basic s a: a type whose size and alignment C knows; Param i: a type parameter; arrays; structures and unions by the types of their members *)
Inductive ty := Basic (s a : Z) | Param (i : nat) | Arr (n : Z) (t : ty) | Struct (ts : list ty) | Union (ts : list ty).
(** The layout of C for types without parameters (psABI of x86-64, as gcc lays out structures): size and alignment *)
Definition up (e a : Z) : Z := (e + a - 1) / a * a.
Fixpoint place (e : Z) (ms : list (Z * Z)) : list Z := match ms with [] => [] | (s, a) :: r => up e a :: place (up e a + s) r end.
Fixpoint ends (e : Z) (ms : list (Z * Z)) : Z := match ms with [] => e | (s, a) :: r => ends (up e a + s) r end.
Definition widest (ms : list (Z * Z)) : Z := fold_right (fun m x => Z.max (snd m) x) 1 ms.
Definition largest (ms : list (Z * Z)) : Z := fold_right (fun m x => Z.max (fst m) x) 0 ms.
Fixpoint c_layout (t : ty) : Z * Z :=
  match t with
  | Basic s a => (s, a)
  | Param _ => (0, 1)
  | Arr n t => let '(s, a) := c_layout t in (s * n, a)
  | Struct ts => let ms := map c_layout ts in (up (ends 0 ms) (widest ms), widest ms)
  | Union ts => let ms := map c_layout ts in (up (largest ms) (widest ms), widest ms)
  end.
(** makeAlignTo, Box.cpp:202-214 *)
Definition align_to (lhs rhs : Z) : Z := let c := Z.land lhs (w (rhs - 1)) in if c =? 0 then lhs else w (lhs + w (rhs - c)).
(** makeAssignMax, Box.cpp:216-221 *)
Definition assign_max (lhs rhs : Z) : Z := if lhs <? rhs then rhs else lhs.
(** the body of the layout function of a structure, Box.cpp:245-294: size, alignment, offsets; idx: the number of the member *)
Fixpoint struct_body (idx : nat) (ms : list (Z * Z)) (size align : Z) (offs : list Z) : Z * Z * list Z :=
  match ms with
  | [] => (align_to size align, align, offs)
  | (s, a) :: r =>
      let size := if (0 <? idx)%nat then align_to size a else size in
      struct_body (S idx) r (w (size + s)) (assign_max align a) (offs ++ [size])
  end.
(** and of a union, Box.cpp:319-352 *)
Fixpoint union_body (ms : list (Z * Z)) (size align : Z) : Z * Z :=
  match ms with [] => (align_to size align, align) | (s, a) :: r => union_body r (assign_max size s) (assign_max align a) end.
Fixpoint closed (t : ty) : bool := match t with Basic _ _ => true | Param _ => false | Arr _ t => closed t | Struct ts | Union ts => forallb closed ts end.
(** genSizeof and genAlignof, Box.cpp:2231-2261: types without parameters are left to C; env: the parameters _sizeof_T and _alignof_T *)
Fixpoint dyn (env : nat -> Z * Z) (t : ty) : Z * Z :=
  if closed t then c_layout t else
  match t with
  | Basic s a => (s, a)
  | Param i => env i
  | Arr n t => let '(s, a) := dyn env t in (w (s * n), a)
  | Struct ts => let '(s, a, _) := struct_body 0 (map (dyn env) ts) 0 1 [] in (s, a)
  | Union ts => union_body (map (dyn env) ts) 1 1
  end.
(** the array _offsetof of a structure *)
Definition dyn_offsets (env : nat -> Z * Z) (ts : list ty) : list Z := snd (struct_body 0 (map (dyn env) ts) 0 1 []).
