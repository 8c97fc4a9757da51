(** Model of src/Common/ScopedMap.hpp (and src/GenPoly/ScopedSet.hpp, the same code with unit values) and
    src/GenPoly/ErasableScopedMap.hpp.
    Keys are integers in the order of std::map's comparator.  A std::map is its list of pairs in increasing key
    order.  The vector of scopes is a list with the back of the vector (innermost scope) first, so the index of a
    scope is the number of scopes after it.  Notes on scopes are not modelled.  [None] is the failed assertion of
    endScope (which in ErasableScopedMap and ScopedMap runs after the pop). *)
From Coq Require Import ZArith List Bool.
Import ListNotations.
Open Scope Z_scope.

Notation omap V := (list (Z * V)).
Notation scopes V := (list (omap V)).

Section Maps.
Context {V : Type}.

(** std::map::find, insert (no overwrite; result: map, inserted?), erase (result: map, number erased), assignment
    through an iterator *)
Fixpoint mfind (m : omap V) (k : Z) : option V :=
  match m with [] => None | (k', v) :: r => if k =? k' then Some v else mfind r k end.
Fixpoint minsert (m : omap V) (k : Z) (v : V) : omap V * bool :=
  match m with
  | [] => ([(k, v)], true)
  | (k', v') :: r =>
      if k <? k' then ((k, v) :: m, true)
      else if k =? k' then (m, false)
      else let (r', b) := minsert r k v in ((k', v') :: r', b)
  end.
Fixpoint merase (m : omap V) (k : Z) : omap V * Z :=
  match m with
  | [] => ([], 0)
  | (k', v') :: r => if k =? k' then (r, 1) else let (r', c) := merase r k in ((k', v') :: r', c)
  end.
Fixpoint mset (m : omap V) (k : Z) (v : V) : omap V :=
  match m with [] => [] | (k', v') :: r => if k =? k' then (k', v) :: r else (k', v') :: mset r k v end.


(** ScopedMap.hpp:68-70 *)
Definition beginScope (s : scopes V) : scopes V := [] :: s.
(** ScopedMap.hpp:79-82 *)
Definition endScope (s : scopes V) : option (scopes V) :=
  match s with [] => None | _ :: r => match r with [] => None | _ => Some r end end.
(** ScopedMap.hpp:85 *)
Definition initial : scopes V := beginScope [].
(** ScopedMap.hpp:99 *)
Definition currentScope (s : scopes V) : nat := (length s - 1)%nat.

(** An iterator: level and position in the map of that level (position = size of the map for end). *)
Definition iter := (nat * nat)%type.
Definition level_map (s : scopes V) (l : nat) : omap V := nth (length s - 1 - l) s [].
(** ScopedMap.hpp:94-96 *)
Definition end_it (s : scopes V) : iter := (0%nat, length (level_map s 0)).

(** ScopedMap.hpp:108-115: the loop from the innermost scope outward; gives level and value *)
Fixpoint find (s : scopes V) (k : Z) : option (nat * V) :=
  match s with
  | [] => None
  | m :: r => match mfind m k with Some v => Some (length r, v) | None => find r k end
  end.
(** ScopedMap.hpp:121-125 *)
Definition findAt (s : scopes V) (l : nat) (k : Z) : option (nat * V) :=
  match mfind (level_map s l) k with Some v => Some (l, v) | None => None end.
(** ScopedMap.hpp:131-139: scopes V strictly outside level l *)
Definition findNext (s : scopes V) (l : nat) (k : Z) : option (nat * V) :=
  match l with O => None | _ => find (skipn (length s - l) s) k end.
(** ScopedMap.hpp:145-155 *)
Definition insert (s : scopes V) (k : Z) (v : V) : scopes V * bool :=
  match s with
  | [] => (s, false)
  | m :: r => let (m', b) := minsert m k v in (m' :: r, b)
  end.
(** ScopedMap.hpp:157-166; vector::at throws for a bad index ([None]) *)
Fixpoint insertAt (s : scopes V) (l : nat) (k : Z) (v : V) : option (scopes V * bool) :=
  match s with
  | [] => None
  | m :: r =>
      if Nat.eqb l (length r) then let (m', b) := minsert m k v in Some (m' :: r, b)
      else match insertAt r l k v with Some (r', b) => Some (m :: r', b) | None => None end
  end.
(** ScopedMap.hpp:168-172; [dflt] is Value().  Result: state, value of the slot *)
Definition index (dflt : V) (s : scopes V) (k : Z) : scopes V * V :=
  match find s k with
  | Some (_, v) => (s, v)
  | None => (fst (insert s k dflt), dflt)
  end.
(** ScopedMap.hpp:175-181 *)
Fixpoint erase (s : scopes V) (k : Z) : scopes V * Z :=
  match s with
  | [] => ([], 0)
  | m :: r => let (m', c) := merase m k in
              if negb (c =? 0) then (m' :: r, c) else let (r', c') := erase r k in (m' :: r', c')
  end.
(** ScopedMap.hpp:183-194: fuelled loop over findNext *)
Fixpoint count_loop (fuel : nat) (s : scopes V) (it : option (nat * V)) (k : Z) (c : nat) : option nat :=
  match it with
  | None => Some c
  | Some (l, _) => match fuel with O => None | S f => count_loop f s (findNext s l k) k (S c) end
  end.
Definition count (s : scopes V) (k : Z) : option nat := count_loop (S (length s)) s (find s k) k 0.
(** ScopedMap.hpp:196-198 *)
Definition contains (s : scopes V) (k : Z) : bool := match find s k with Some _ => true | None => false end.

(** Iteration, ScopedMap.hpp:91, 210-218, 237-246 (and :262-300 for const_iterator).  [skip_next valid] is the
    mutual recursion of operator++ and next_valid; [valid] is is_valid, so that the erasable map can reuse it. *)
Section Iter.
  Context (valid : V -> bool).
  Definition at_it (s : scopes V) (i : iter) : option (Z * V) := nth_error (level_map s (fst i)) (snd i).
  Definition is_valid (s : scopes V) (i : iter) : bool :=
    match at_it s i with Some (_, v) => valid v | None => false end.
  (** next_valid applied to (level, pos); fuel bounds the remaining steps *)
  Fixpoint next_valid (fuel : nat) (s : scopes V) (i : iter) : option iter :=
    if is_valid s i then Some i else
    match fuel with
    | O => None
    | S f =>
        let (l, p) := i in
        if Nat.leb (length (level_map s l)) p then
          match l with O => Some i | S l' => next_valid f s (l', 0%nat) end
        else next_valid f s (l, S p)
    end.
  Definition total (s : scopes V) : nat := fold_right (fun m n => (S (length m) + n)%nat) 0%nat s.
  Definition begin_it (s : scopes V) : option iter := next_valid (total s) s (currentScope s, 0%nat).
  (** operator++ *)
  Definition incr (s : scopes V) (i : iter) : option iter :=
    let (l, p) := i in
    if Nat.leb (length (level_map s l)) p then
      match l with O => Some i | S l' => next_valid (total s) s (l', 0%nat) end
    else next_valid (total s) s (l, S p).
  Definition iter_eqb (a b : iter) : bool := Nat.eqb (fst a) (fst b) && Nat.eqb (snd a) (snd b).
  (** [for ( it = begin(); it != end(); ++it ) visit( *it )] *)
  Fixpoint walk (fuel : nat) (s : scopes V) (i : iter) : option (list (Z * V)) :=
    if iter_eqb i (end_it s) then Some [] else
    match fuel with
    | O => None
    | S f =>
        match at_it s i, incr s i with
        | Some kv, Some i' => match walk f s i' with Some l => Some (kv :: l) | None => None end
        | _, _ => None
        end
    end.
  Definition iterate (s : scopes V) : option (list (Z * V)) :=
    match begin_it s with Some i => walk (S (total s)) s i | None => None end.
End Iter.

(** ErasableScopedMap.  [erased] is the sentinel, [isE v] the test [v == erased]. *)
Section Erasable.
  Context (erased : V) (isE : V -> bool).
  (** ErasableScopedMap.hpp:82-91 *)
  Fixpoint efind (s : scopes V) (k : Z) : option (nat * V) :=
    match s with
    | [] => None
    | m :: r => match mfind m k with
                | Some v => if isE v then None else Some (length r, v)
                | None => efind r k
                end
    end.
  (** ErasableScopedMap.hpp:126-135: result is state and returned count *)
  Definition eerase (s : scopes V) (k : Z) : scopes V * Z :=
    match s with
    | [] => (s, 0)
    | m :: r => match mfind m k with
                | Some _ => (mset m k erased :: r, 1)
                | None => (fst (minsert m k erased) :: r, 0)
                end
    end.
  (** ErasableScopedMap.hpp:119-123 *)
  Definition eindex (dflt : V) (s : scopes V) (k : Z) : scopes V * option V :=
    match efind s k with
    | Some (_, v) => (s, Some v)
    | None => match s with
              | [] => (s, None)
              | m :: r => let m' := fst (minsert m k dflt) in (m' :: r, mfind m' k)
              end
    end.
  (** ErasableScopedMap.hpp:71, 149-188: iteration skips sentinel entries *)
  Definition eiterate (s : scopes V) : option (list (Z * V)) := iterate (fun v => negb (isE v)) s.
End Erasable.
End Maps.

(** Histories of operations with their observable results. *)
Inductive op (V : Type) :=
| Begin | End | Insert (k : Z) (v : V) | InsertAt (l : nat) (k : Z) (v : V) | Erase (k : Z) | Find (k : Z)
| Contains (k : Z) | Count (k : Z) | Index (k : Z).
Arguments Begin {V}. Arguments End {V}. Arguments Insert {V}. Arguments InsertAt {V}. Arguments Erase {V}.
Arguments Find {V}. Arguments Contains {V}. Arguments Count {V}. Arguments Index {V}.
Inductive out (V : Type) :=
| Unit | Bool (b : bool) | Num (n : Z) | Val (v : option (nat * V)) | Slot (v : V) | Stop.
Arguments Unit {V}. Arguments Bool {V}. Arguments Num {V}. Arguments Val {V}. Arguments Slot {V}. Arguments Stop {V}.

Definition step {V} (dflt : V) (s : scopes V) (o : op V) : option (scopes V) * out V :=
  match o with
  | Begin => (Some (beginScope s), Unit)
  | End => match endScope s with Some s' => (Some s', Unit) | None => (None, Stop) end
  | Insert k v => let (s', b) := insert s k v in (Some s', Bool b)
  | InsertAt l k v => match insertAt s l k v with Some (s', b) => (Some s', Bool b) | None => (None, Stop) end
  | Erase k => let (s', c) := erase s k in (Some s', Num c)
  | Find k => (Some s, Val (find s k))
  | Contains k => (Some s, Bool (contains s k))
  | Count k => match count s k with Some n => (Some s, Num (Z.of_nat n)) | None => (None, Stop) end
  | Index k => let (s', v) := index dflt s k in (Some s', Slot v)
  end.
Fixpoint run {V} (dflt : V) (s : scopes V) (os : list (op V)) : option (scopes V) * list (out V) :=
  match os with
  | [] => (Some s, [])
  | o :: r => match step dflt s o with
              | (Some s', x) => let (f, xs) := run dflt s' r in (f, x :: xs)
              | (None, x) => (None, [x])
              end
  end.
