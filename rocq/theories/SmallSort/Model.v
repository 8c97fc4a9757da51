(** Model of libcfa/src/bits/algorithm.hfa (the !SAFE_SORT branch, lines 107-185; the SAFE_SORT branch,
    lines 19-103, is the same code over a polymorphic T).
    An array of addresses is a [list Z]; every access goes through [get]/[set], which fail ([None]) out of
    bounds.  Simplification: [int j] (line 179) is a natural, i.e. dim < 2^31. *)
From Coq Require Import ZArith List.
Import ListNotations.
Open Scope Z_scope.

Definition get (arr : list Z) (i : nat) : option Z := nth_error arr i.
Fixpoint set (arr : list Z) (i : nat) (v : Z) : option (list Z) :=
  match arr, i with
  | [], _ => None
  | _ :: r, O => Some (v :: r)
  | x :: r, S i' => match set r i' v with Some r' => Some (x :: r') | None => None end
  end.

(** algorithm.hfa:127-128, the macros min and max: note [y > x]. *)
Definition mmin (x y : Z) : Z := if x <? y then x else y.
Definition mmax (x y : Z) : Z := if x <? y then y else x.

(** algorithm.hfa:129, SWAP(x,y): read both, then write both. *)
Definition SWAP (arr : list Z) (xy : nat * nat) : option (list Z) :=
  let '(x, y) := xy in
  match get arr x, get arr y with
  | Some vx, Some vy =>
      match set arr x (mmin vx vy) with
      | Some arr' => set arr' y (mmax vx vy)
      | None => None
      end
  | _, _ => None
  end.

Fixpoint network (net : list (nat * nat)) (arr : list Z) : option (list Z) :=
  match net with
  | [] => Some arr
  | c :: net' => match SWAP arr c with Some arr' => network net' arr' | None => None end
  end.

(** algorithm.hfa:131-133 *)
Definition net2 : list (nat * nat) := [(0, 1)]%nat.
(** algorithm.hfa:135-139 *)
Definition net3 : list (nat * nat) := [(1, 2); (0, 2); (0, 1)]%nat.
(** algorithm.hfa:141-147 *)
Definition net4 : list (nat * nat) := [(0, 1); (2, 3); (0, 2); (1, 3); (1, 2)]%nat.
(** algorithm.hfa:149-159 *)
Definition net5 : list (nat * nat) :=
  [(0, 1); (3, 4); (2, 4); (2, 3); (0, 3); (0, 2); (1, 4); (1, 3); (1, 2)]%nat.
(** algorithm.hfa:161-174 *)
Definition net6 : list (nat * nat) :=
  [(1, 2); (4, 5); (0, 2); (3, 5); (0, 1); (3, 4); (1, 4); (0, 3); (2, 5); (1, 3); (2, 4); (2, 3)]%nat.

(** algorithm.hfa:180-183, inner loop: [for (j = i; j >= 1 && tmp < arr[j-1]; j--) arr[j] = arr[j-1]; arr[j] = tmp;] *)
Fixpoint shift (j : nat) (tmp : Z) (arr : list Z) : option (list Z) :=
  match j with
  | O => set arr 0 tmp
  | S j' => match get arr j' with
            | None => None
            | Some v => if tmp <? v
                        then match set arr j v with Some arr' => shift j' tmp arr' | None => None end
                        else set arr j tmp
            end
  end.

(** algorithm.hfa:176-185, outer loop [for ( i; 1 ~ dim )]; [n] is the number of iterations left, [i] the index. *)
Fixpoint sortN_loop (n i : nat) (arr : list Z) : option (list Z) :=
  match n with
  | O => Some arr
  | S n' => match get arr i with
            | None => None
            | Some tmp => match shift i tmp arr with
                          | Some arr' => sortN_loop n' (S i) arr'
                          | None => None
                          end
            end
  end.
Definition sortN (dim : nat) (arr : list Z) : option (list Z) := sortN_loop (dim - 1) 1 arr.

(** algorithm.hfa:115-125, dispatch on the number of elements *)
Definition small_sort (dim : nat) (arr : list Z) : option (list Z) :=
  match dim with
  | 1%nat => Some arr
  | 2%nat => network net2 arr
  | 3%nat => network net3 arr
  | 4%nat => network net4 arr
  | 5%nat => network net5 arr
  | 6%nat => network net6 arr
  | _ => sortN dim arr
  end.
