(** What sharing by handles means. *)
From Coq Require Import List.
From Verif.FutureRC Require Import Model.
Import ListNotations.
Inductive reach (ths : list nat) : state -> Prop :=
  | reach_start : reach ths start
  | reach_step : forall s t a s1, reach ths s -> step ths s t a = Some s1 -> reach ths s1.
(** a handle refers to a shared future *)
Definition refers (s : state) (h i : nat) : Prop := In (h, i) (hs s).
Definition quiet (ths : list nat) (s : state) : Prop := forall t, In t ths -> at_ s t = Rest.
