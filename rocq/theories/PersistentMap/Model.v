(** Model of src/Common/PersistentMap.hpp (lines 28-288).
    The heap of version nodes is a total map from node numbers to nodes with an allocation counter; a Ptr is a node
    number.  Nodes are not freed (freeing is only possible for versions no handle can reach).  An unordered_map is a
    list of key/value pairs in some order; dereferencing an end iterator is undefined and gives [None]; the recursion
    of reroot is on fuel ([None] when exhausted).  Moving out of keys and values is modelled as copying: every
    moved-from field is destroyed by the following reset() before it can be read. *)
From Coq Require Import ZArith List Bool Arith.
Import ListNotations.
Open Scope Z_scope.

Section M.
Context {V : Type}.
Notation base := (list (Z * V)).

(** std::unordered_map: find, emplace (no effect when present), erase, assignment to it->second *)
Fixpoint mfind (m : base) (k : Z) : option V :=
  match m with [] => None | (k', v) :: r => if k =? k' then Some v else mfind r k end.
Definition memplace (m : base) (k : Z) (v : V) : base :=
  match mfind m k with Some _ => m | None => (k, v) :: m end.
Fixpoint merase (m : base) (k : Z) : base :=
  match m with [] => [] | (k', v) :: r => if k =? k' then r else (k', v) :: merase r k end.
Fixpoint massign (m : base) (k : Z) (v : V) : base :=
  match m with [] => [] | (k', v') :: r => if k =? k' then (k', v) :: r else (k', v') :: massign r k v end.

(** PersistentMap.hpp:40-45 (Mode), 51-86 (Ins, Rem, Data) *)
Inductive node :=
| BASE (m : base)
| REM (b : nat) (k : Z)
| INS (b : nat) (k : Z) (v : V)
| UPD (b : nat) (k : Z) (v : V).
Record heap := H { nodes : nat -> node; next : nat }.
Definition put (h : heap) (i : nat) (n : node) : heap :=
  H (fun j => if Nat.eqb j i then n else nodes h j) (next h).
(** make_shared *)
Definition alloc (h : heap) (n : node) : heap * nat :=
  (put (H (nodes h) (S (next h))) (next h) n, next h).

(** PersistentMap.hpp:141-192 *)
Fixpoint reroot (fuel : nat) (h : heap) (this : nat) : option heap :=
  match nodes h this with
  | BASE _ => Some h
  | REM b _ | INS b _ _ | UPD b _ _ =>
      match fuel with
      | O => None
      | S f =>
          match reroot f h b with
          | None => None
          | Some h1 =>
              match nodes h1 b with                      (* take_as<Base>, :153 *)
              | BASE base_map =>
                  match nodes h1 this with               (* :157-186 *)
                  | REM _ key =>
                      match mfind base_map key with
                      | None => None
                      | Some old => Some (put (put h1 b (INS this key old)) this (BASE (merase base_map key)))
                      end
                  | INS _ key val =>
                      Some (put (put h1 b (REM this key)) this (BASE (memplace base_map key val)))
                  | UPD _ key val =>
                      match mfind base_map key with
                      | None => None
                      | Some old => Some (put (put h1 b (UPD this key old)) this (BASE (massign base_map key val)))
                      end
                  | BASE _ => None                       (* assertf, :186 *)
                  end
              | _ => None
              end
          end
      end
  end.

(** PersistentMap.hpp:196-199; the fuel is the number of nodes *)
Definition rerooted (h : heap) (this : nat) : option (heap * base) :=
  match reroot (next h) h this with
  | None => None
  | Some h1 => match nodes h1 this with BASE m => Some (h1, m) | _ => None end
  end.

(** PersistentMap.hpp:203 and :206 *)
Definition empty (h : heap) (this : nat) : option (heap * bool) :=
  match rerooted h this with Some (h1, m) => Some (h1, match m with [] => true | _ => false end) | None => None end.
Definition size (h : heap) (this : nat) : option (heap * nat) :=
  match rerooted h this with Some (h1, m) => Some (h1, length m) | None => None end.
(** PersistentMap.hpp:217 (find, and get / get_or_default :223-237, which look at the same iterator) *)
Definition find (h : heap) (this : nat) (k : Z) : option (heap * option V) :=
  match rerooted h this with Some (h1, m) => Some (h1, mfind m k) | None => None end.
(** PersistentMap.hpp:220 *)
Definition count (h : heap) (this : nat) (k : Z) : option (heap * nat) :=
  match rerooted h this with
  | Some (h1, m) => Some (h1, length (filter (fun p => k =? fst p) m))
  | None => None
  end.
(** PersistentMap.hpp:240-266 *)
Definition set (h : heap) (this : nat) (k : Z) (v : V) : option (heap * nat) :=
  match rerooted h this with
  | None => None
  | Some (h1, m) =>
      let (h2, ret) := alloc h1 (BASE m) in
      match mfind m k with
      | None => Some (put (put h2 this (REM ret k)) ret (BASE (memplace m k v)), ret)
      | Some old => Some (put (put h2 this (UPD ret k old)) ret (BASE (massign m k v)), ret)
      end
  end.
(** PersistentMap.hpp:269-287 *)
Definition erase (h : heap) (this : nat) (k : Z) : option (heap * nat) :=
  match rerooted h this with
  | None => None
  | Some (h1, m) =>
      match mfind m k with
      | None => Some (h1, this)
      | Some old =>
          let (h2, ret) := alloc h1 (BASE m) in
          Some (put (put h2 this (INS ret k old)) ret (BASE (merase m k)), ret)
      end
  end.
(** PersistentMap.hpp:128 and :139 *)
Definition new_ptr (h : heap) : heap * nat := alloc h (BASE []).
End M.
Arguments node : clear implicits.
Arguments heap : clear implicits.

(** Histories: handles are numbered in the order of creation by [New], [Set_] and [Erase] (each such call yields one
    handle, even when erase returns the map itself). *)
Inductive op (V : Type) :=
| New | Set_ (x : nat) (k : Z) (v : V) | Erase (x : nat) (k : Z) | Find (x : nat) (k : Z) | Count (x : nat) (k : Z)
| Size (x : nat) | Empty (x : nat).
Arguments New {V}. Arguments Set_ {V}. Arguments Erase {V}. Arguments Find {V}. Arguments Count {V}.
Arguments Size {V}. Arguments Empty {V}.
Inductive out (V : Type) := Handle | Val (v : option V) | Num (n : nat) | Bool (b : bool) | NoHandle.
Arguments Handle {V}. Arguments Val {V}. Arguments Num {V}. Arguments Bool {V}. Arguments NoHandle {V}.

Definition step {V} (s : heap V * list nat) (o : op V) : option (heap V * list nat * out V) :=
  let (h, hs) := s in
  let with_ x (f : nat -> option (heap V * list nat * out V)) :=
    match nth_error hs x with Some i => f i | None => Some (s, NoHandle) end in
  match o with
  | New => let (h', i) := new_ptr h in Some (h', hs ++ [i], Handle)
  | Set_ x k v => with_ x (fun i => match set h i k v with Some (h', r) => Some (h', hs ++ [r], Handle) | None => None end)
  | Erase x k => with_ x (fun i => match erase h i k with Some (h', r) => Some (h', hs ++ [r], Handle) | None => None end)
  | Find x k => with_ x (fun i => match find h i k with Some (h', r) => Some (h', hs, Val r) | None => None end)
  | Count x k => with_ x (fun i => match count h i k with Some (h', r) => Some (h', hs, Num r) | None => None end)
  | Size x => with_ x (fun i => match size h i with Some (h', r) => Some (h', hs, Num r) | None => None end)
  | Empty x => with_ x (fun i => match empty h i with Some (h', r) => Some (h', hs, Bool r) | None => None end)
  end.
(** The outputs of a history; [None] when some call is undefined. *)
Fixpoint run {V} (s : heap V * list nat) (os : list (op V)) : option (list (out V)) :=
  match os with
  | [] => Some []
  | o :: r => match step s o with
              | Some (s', x) => match run s' r with Some xs => Some (x :: xs) | None => None end
              | None => None
              end
  end.
Definition initial {V} : heap V * list nat := (H (fun _ => BASE []) 0, []).
