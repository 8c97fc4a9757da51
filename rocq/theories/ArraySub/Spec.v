(** Row-major numbering of the elements of an array with extents ds. *)
From Coq Require Import ZArith List.
Import ListNotations.
Open Scope Z_scope.
Fixpoint count (ds : list Z) : Z := match ds with [] => 1 | d :: r => d * count r end.
Fixpoint number (ds is : list Z) : Z := match ds, is with d :: dr, i :: ir => i * count dr + number dr ir | _, _ => 0 end.
Definition inside (ds is : list Z) : Prop := Forall2 (fun d i => 0 <= i < d) ds is.
(** A pattern of subscripts: true gives an index for the dimension now first, false puts that dimension last. The dimensions q in the order in which they are given an index: *)
Fixpoint order (pat : list bool) (q : list nat) : list nat :=
  match pat, q with true :: p, x :: r => x :: order p r | false :: p, x :: r => order p (r ++ [x]) | _, _ => [] end.
