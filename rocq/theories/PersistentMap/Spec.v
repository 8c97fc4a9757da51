(** Specification: immutable finite maps, as lists of pairs without repeated keys. *)
From Coq Require Import ZArith List Bool.
From Verif.PersistentMap Require Import Model.
Import ListNotations.
Open Scope Z_scope.

Section S.
Context {V : Type}.
Definition fmap := list (Z * V).
Definition without (k : Z) (m : fmap) : fmap := filter (fun p => negb (k =? fst p)) m.
Definition with_binding (k : Z) (v : V) (m : fmap) : fmap := (k, v) :: without k m.
Definition lookup (k : Z) (m : fmap) : option V :=
  match filter (fun p => k =? fst p) m with (_, v) :: _ => Some v | [] => None end.
Definition spec_step (ms : list fmap) (o : op V) : list fmap * out V :=
  let with_ x (f : fmap -> list fmap * out V) := match nth_error ms x with Some m => f m | None => (ms, NoHandle) end in
  match o with
  | New => (ms ++ [[]], Handle)
  | Set_ x k v => with_ x (fun m => (ms ++ [with_binding k v m], Handle))
  | Erase x k => with_ x (fun m => (ms ++ [without k m], Handle))
  | Find x k => with_ x (fun m => (ms, Val (lookup k m)))
  | Count x k => with_ x (fun m => (ms, Num (match lookup k m with Some _ => 1 | None => 0 end)%nat))
  | Size x => with_ x (fun m => (ms, Num (length m)))
  | Empty x => with_ x (fun m => (ms, Bool (Nat.eqb (length m) 0)))
  end.
Fixpoint spec_run (ms : list fmap) (os : list (op V)) : list (out V) :=
  match os with [] => [] | o :: r => let (ms', x) := spec_step ms o in x :: spec_run ms' r end.
End S.
