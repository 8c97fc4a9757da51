(** The mutex statement: its translation, src/Concurrency/Keywords.cpp:996-1005,1190-1376, and its guard, libcfa/src/concurrency/mutex_stmt.hfa:17-34. *)
From Coq Require Import List Bool Arith ZArith.
From Verif.SmallSort Require Model.
Import ListNotations.
Open Scope Z_scope.
(** An argument: a lock of some type, designated by an expression, or a tuple. The expression is a variable whose content is the address of the lock, as in mutex( *p ); a plain lock is a variable that never changes. *)
Inductive arg := Lk (ty : nat) (x : nat) | Tup (l : list arg).
Definition store := nat -> Z.
(** flattenTuple, Keywords.cpp:1245-1251 *)
Fixpoint flatten (a : arg) : list arg :=
  match a with
  | Tup l => (fix go l := match l with [] => [] | e :: r => flatten e ++ go r end) l
  | Lk _ _ => [a]
  end.
(** Keywords.cpp:1266-1272: whether arg is a tuple is asked of args.at(0) *)
Definition flat (args : list arg) : list arg :=
  concat (map (fun a => match nth_error args 0 with Some (Tup l) => flatten (Tup l) | _ => [a] end) args).
(** a tuple that is left is not a lock, and the call of __get_mutexstmt_lock_ptr is not resolved: None *)
Fixpoint locks (l : list arg) : option (list (nat * nat)) :=
  match l with
  | [] => Some []
  | Lk t x :: r => match locks r with Some k => Some ((t, x) :: k) | None => None end
  | Tup _ :: _ => None
  end.
(** what the statement does; a lock operation is on an object of some type at some address; Raise: lock is called and raises an exception *)
Inductive event := Lock (ty : nat) (a : Z) | Unlock (ty : nat) (a : Z) | Raise (ty : nat) (a : Z) | Body.
(** the array __monitors, Keywords.cpp:1275-1299, sorted by the constructor of the guard, mutex_stmt.hfa:22-28 *)
Definition monitors (st : store) (ls : list (nat * nat)) : option (list Z) := Model.small_sort (length ls) (map (fun p => st (snd p)) ls).
(** genTypeDiscrimLockUnlock, Keywords.cpp:1213-1243: the first argument that now has this address gives the type; without one nothing is called *)
Definition discrim (st : store) (ls : list (nat * nat)) (op : nat -> Z -> event) (m : Z) : list event :=
  match find (fun p => m =? st (snd p)) ls with Some p => [op (fst p) m] | None => [] end.
(** the nested try statements, Keywords.cpp:1305-1348, over the rest ms of the array. st: the variables when the locks are acquired; st': after the body, or after the exception; bad: the place of the lock whose lock raises.
    The finally clause runs however the try block is left, so an exception from the body changes nothing. *)
Fixpoint tries (st st' : store) (ls : list (nat * nat)) (bad : option nat) (ms : list Z) : list event :=
  match ms with
  | [] => [Body]
  | m :: ms =>
      match bad with
      | Some O => discrim st ls Raise m
      | Some (S b) => discrim st ls Lock m ++ tries st st' ls (Some b) ms
      | None => discrim st ls Lock m ++ tries st st' ls None ms
      end ++ discrim st' ls Unlock m
  end.
(** the statement; None: it is not compiled. Without arguments it is a syntax error, src/Parser/parser.yy:1753-1758 *)
Definition stmt (args : list arg) (st st' : store) (bad : option nat) : option (list event) :=
  match args, locks (flat args) with
  | [], _ => None
  | _, Some ls => match monitors st ls with Some ms => Some (tries st st' ls bad ms) | None => None end
  | _, None => None
  end.
(** Threads doing such things. A lock can be acquired when nobody has it (not even the same thread), and released by its owner; otherwise lock waits and unlock is an error of the thread. *)
Definition upd (o : Z -> option nat) (a : Z) (v : option nat) : Z -> option nat := fun x => if x =? a then v else o x.
Fixpoint put {A} (i : nat) (x : A) (l : list A) : list A := match l, i with [], _ => [] | _ :: r, O => x :: r | y :: r, S i => y :: put i x r end.
Definition world := ((Z -> option nat) * list (list event))%type.
Inductive move : world -> world -> Prop :=
  | m_lock o l t ty a r : nth_error l t = Some (Lock ty a :: r) -> o a = None -> move (o, l) (upd o a (Some t), put t r l)
  | m_unlock o l t ty a r : nth_error l t = Some (Unlock ty a :: r) -> o a = Some t -> move (o, l) (upd o a None, put t r l)
  | m_raise o l t ty a r : nth_error l t = Some (Raise ty a :: r) -> move (o, l) (o, put t r l)
  | m_body o l t r : nth_error l t = Some (Body :: r) -> move (o, l) (o, put t r l).
Definition free : Z -> option nat := fun _ => None.
