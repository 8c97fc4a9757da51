(** What a future is, in terms of what happens to it in order; and the ways of using it for which the code keeps to that. *)
From Coq Require Import List Bool Arith.
From Verif.Future Require Import Model.
Import ListNotations.
(** a future is empty, or holds a value, or an exception *)
Inductive cell := Empty | Value (v : nat) | Exception (e : nat).
Inductive does : cell -> ev -> cell -> Prop :=
  | d_ful : forall v, does Empty (EFul v) (Value v)
  | d_exc : forall e, does Empty (EExc e) (Exception e)
  | d_reset : forall c, does c EReset Empty
  | d_val : forall v t, does (Value v) (EVal t (Some v)) (Value v)
  | d_raise : forall e t, does (Exception e) (ERaise t e) (Exception e)
  | d_try : forall v t, does (Value v) (ETry t (Some v) true) (Value v)
  | d_try_exc : forall e t r, does (Exception e) (ETry t r true) (Exception e)   (** nothing is said about try_get on an exception *)
  | d_no : forall t r, does Empty (ETry t r false) Empty.
Inductive legal : list ev -> cell -> Prop :=
  | legal_nil : legal [] Empty
  | legal_snoc : forall l c e c1, legal l c -> does c e c1 -> legal (l ++ [e]) c1.
(** the part of a history that concerns the calls of one thread, as what those calls hand back *)
Definition to_ret (t : nat) (e : ev) : list ret :=
  match e with
  | EVal u r => if u =? t then [Val r] else []
  | ERaise u x => if u =? t then [Raised x] else []
  | ETry u r b => if u =? t then [Tried r b] else []
  | _ => []
  end.
Definition mine (t : nat) (l : list ev) : list ret := flat_map (to_ret t) l.
(** executions; [values]: no exception is ever put in. [early]: no get finds the future empty, and no handler resumes *)
Inductive use := values | early.
Definition allowed (u : use) (s : state) (t : nat) (a : act) : Prop :=
  match u with
  | values => forall e, a <> Start (OExc e)
  | early => a <> Resume /\ (at_ s t = Body OGet -> full s = true)
  end.
Inductive reach : state -> Prop :=
  | reach_start : reach start
  | reach_step : forall s t a s1, reach s -> step s t a = Some s1 -> reach s1.
Inductive reach_in (u : use) : state -> Prop :=
  | in_start : reach_in u start
  | in_step : forall s t a s1, reach_in u s -> allowed u s t a -> step s t a = Some s1 -> reach_in u s1.
(** between lock and unlock *)
Definition inside (p : pc) : bool := match p with Body _ | ExcU _ | GetU _ | Ins | TryU _ _ | EndU => true | _ => false end.
