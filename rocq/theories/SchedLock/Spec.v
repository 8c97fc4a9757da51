(** What a reader-writer lock promises. *)
From Coq Require Import List.
From Verif.SchedLock Require Import Model.
Import ListNotations.
Inductive reach (ok : act -> Prop) (m : nat) (junk : nat -> option nat) : state -> Prop :=
  | reach_start : reach ok m junk (start m junk)
  | reach_step : forall s t a s1, reach ok m junk s -> ok a -> step s t a = Some s1 -> reach ok m junk s1.
Definition any (a : act) : Prop := True.
Definition stays (a : act) : Prop := a <> Unregister.
Definition reading (s : state) (t : nat) : Prop := exists id, at_ s t = Reading id.
Definition writing (s : state) (t : nat) : Prop := exists id k, at_ s t = Writing id k.
Definition exclusive (s : state) : Prop := forall t u, writing s t -> t <> u -> ~ reading s u /\ ~ writing s u.
(** a thread that has nothing to do *)
Definition resting (s : state) (t : nat) : Prop := at_ s t = Out \/ at_ s t = Gone \/ exists id, at_ s t = Idle id.
(** a thread can leave the place where it is *)
Definition moves (s : state) (t : nat) : Prop := exists s1, step s t Go = Some s1 /\ (at_ s1 t <> at_ s t \/ ending_ s1 = Aborted).
