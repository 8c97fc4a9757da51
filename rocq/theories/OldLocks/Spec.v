(** What mutexes and conditions promise, for the states that executions reach from a new lock. *)
From Coq Require Import ZArith List Bool.
From Verif.OldLocks Require Import Model.
Import ListNotations.
Inductive reach (l : lockst) : sys -> Prop :=
| reach_init : reach l (init l)
| reach_step : forall s e s', reach l s -> step e s = Next s' -> reach l s'.
Definition new (l : lockst) : Prop := l = new_mutex \/ l = new_recursive.
(** t runs and holds the lock d times *)
Definition inside (s : sys) (t d : nat) : Prop := ph s t = In d.
(** t is in lock and has to wait *)
Definition blocked (s : sys) (t : nat) : Prop := ph s t = Wl /\ tok s t = O.
(** t is in lock and has been handed the lock *)
Definition handed (s : sys) (t : nat) : Prop := ph s t = Wl /\ tok s t = 1%nat.
(** t is in wait, has released the lock and has not been notified *)
Definition waiting (s : sys) (t : nat) : Prop := ((exists d, ph s t = Wb d \/ (ph s t = Wc d /\ tok s t = O)) \/ (ph s t = Wp /\ tok s t = O)).
(** t holds the lock: it runs inside, has just been handed it, or is in wait and has locked it more often than wait unlocks it *)
Definition holder (s : sys) (t : nat) : Prop :=
  handed s t \/ exists d, (1 <= d)%nat /\ (ph s t = In d \/ ph s t = Wa d \/ ph s t = Wb d \/ ph s t = Wc d \/ ph s t = Wd d).
