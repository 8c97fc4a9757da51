(** What the statement should do. *)
From Coq Require Import List Bool Arith ZArith Sorted Permutation.
From Verif.MutexStmt Require Import Model.
Import ListNotations.
Open Scope Z_scope.
(** the arguments as the programmer means them: all the locks, in tuples or not *)
Definition meant (args : list arg) : list arg := concat (map flatten args).
Definition plain (args : list arg) : Prop := Forall (fun a => match a with Lk _ _ => True | Tup _ => False end) args.
(** acquire the locks in ascending order, do the body, release them in the opposite order *)
Definition block (ls : list (nat * Z)) : list event := map (fun p => Lock (fst p) (snd p)) ls ++ Body :: map (fun p => Unlock (fst p) (snd p)) (rev ls).
Definition ascending (ls : list (nat * Z)) : Prop := StronglySorted (fun p q => snd p < snd q) ls.
Inductive moves : nat -> world -> world -> Prop :=
  | moves_0 w : moves 0 w w
  | moves_S n w x y : moves n w x -> move x y -> moves (S n) w y.
(** threads that each execute any number of mutex statements, one after the other *)
Definition program (ss : list (list (nat * Z))) : list event := concat (map block ss).
Definition threads (pss : list (list (list (nat * Z)))) : list (list event) := map program pss.
Definition finished (w : world) : Prop := Forall (fun p => p = []) (snd w).
(** thread t is inside the body of a statement with these locks *)
Definition inside (w : world) (t : nat) (ls : list (nat * Z)) : Prop := exists rest, nth_error (snd w) t = Some (Body :: map (fun p => Unlock (fst p) (snd p)) (rev ls) ++ rest).
(** a statement: arguments, variables before and after the body *)
Definition statement := (list arg * store * store)%type.
Definition address (st : store) (a : arg) : nat * Z := match a with Lk t x => (t, st x) | Tup _ => (0%nat, 0) end.
(** there are arguments, they are locks at different addresses, and the body does not change which *)
Definition proper (s : statement) : Prop :=
  let '(args, st, st') := s in args <> [] /\ plain args /\ NoDup (map (fun a => snd (address st a)) args) /\ forall a, In a args -> address st' a = address st a.
(** what threads of such statements do *)
Definition does (s : statement) : list event := let '(args, st, st') := s in match stmt args st st' None with Some e => e | None => [] end.
Definition system (p : list (list statement)) : world := (free, map (fun ss => concat (map does ss)) p).
