(** The ready queue as numbered lists of threads. *)
From Coq Require Import ZArith List Permutation.
From Verif.ReadyQueue Require Import Model.
Import ListNotations.
Open Scope nat_scope.
Record lists := R { size : nat; procs : nat; lane : nat -> list nat }.
Definition put (f : nat -> list nat) (i : nat) (l : list nat) : nat -> list nat := fun j => if Nat.eqb j i then l else f j.
Definition queued (s : lists) (t : nat) : Prop := exists i, i < size s /\ In t (lane s i).
Definition all (s : lists) : list nat := concat (map (lane s) (seq 0 (size s))).
(** threads moved one by one to the ends of lanes below n *)
Inductive moved (n : nat) : (nat -> list nat) -> list nat -> (nat -> list nat) -> Prop :=
  | moved_nil : forall f, moved n f [] f
  | moved_cons : forall f t ts i g, i < n -> moved n (put f i (f i ++ [t])) ts g -> moved n f (t :: ts) g.
Definition sensible (now : Z) : Prop := (0 < now < 2 ^ 64 - 1)%Z.
(** what an operation may do: new lists and the thread returned *)
Inductive took (s : lists) (i t : nat) : lists -> Prop :=
  | took_ : forall r, i < size s -> lane s i = t :: r -> took s i t (R (size s) (procs s) (put (lane s) i r)).
Inductive spec (s : lists) : op -> lists -> option nat -> Prop :=
  | push_remote : forall t r now i, i < size s -> ~ queued s t -> sensible now -> spec s (PushRemote t r now) (R (size s) (procs s) (put (lane s) i (lane s i ++ [t]))) None
  | push_local : forall p its t now i, p < procs s -> i = 2 * p \/ i = 2 * p + 1 -> ~ queued s t -> sensible now ->
      spec s (PushLocal p its t now) (R (size s) (procs s) (put (lane s) i (lane s i ++ [t]))) None
  | try_none : forall w, w < size s -> lane s w = [] -> spec s (TryPop w) s None
  | try_some : forall w t s1, took s w t s1 -> spec s (TryPop w) s1 (Some t)
  | fast_none : forall p itr help, p < procs s -> lane s (2 * p) = [] -> lane s (2 * p + 1) = [] -> spec s (PopFast p itr help) s None
  | fast_some : forall p itr help i t s1, p < procs s -> took s i t s1 -> i = 2 * p \/ i = 2 * p + 1 \/ help = Some i -> spec s (PopFast p itr help) s1 (Some t)
  | search_none : forall off, spec s (Search off) s None
  | search_some : forall off i t s1, took s i t s1 -> spec s (Search off) s1 (Some t)
  | grows : forall n pl f, procs s <= n -> (forall i, i < size s -> f i = lane s i) -> (forall i, size s <= i -> f i = []) ->
      spec s (Grow n pl) (R (Nat.max (2 * n) 2) n f) None
  | shrinks : forall n pl ms g, n <= procs s -> let c := Nat.max (2 * n) 2 in
      moved c (fun i => if Nat.ltb i c then lane s i else []) (concat (map (lane s) (seq c (size s - c)))) g ->
      spec s (Shrink n pl ms) (R c n g) None.
Inductive specs : lists -> list (op * option nat) -> lists -> Prop :=
  | specs_nil : forall s, specs s [] s
  | specs_cons : forall s o s1 x l s2, spec s o s1 x -> specs s1 l s2 -> specs s ((o, x) :: l) s2.
(** a program that schedules only threads that are not queued, and asks only for lanes and processors that exist *)
Definition proper (s : lists) (o : op) : Prop :=
  match o with
  | PushRemote t _ now => 0 < size s /\ ~ queued s t /\ sensible now
  | PushLocal p _ t now => p < procs s /\ ~ queued s t /\ sensible now
  | TryPop w => w < size s
  | PopFast p _ _ => p < procs s
  | Search _ => True
  | Grow n _ => procs s <= n
  | Shrink n _ ms => 0 < size s /\ n <= procs s /\ Forall (fun m => sensible (snd m)) ms /\ length (all s) <= length ms
  end.
Definition nothing : lists := R 0 0 (fun _ => []).
Definition pushed (o : op) : list nat := match o with PushRemote t _ _ | PushLocal _ _ t _ => [t] | _ => [] end.
Definition popped (x : option nat) : list nat := match x with Some t => [t] | None => [] end.
(** a program choosing operations by the outcomes so far, proper whatever the outcomes, for n operations *)
Definition program := list (option nat) -> option op.
Fixpoint disciplined (p : program) (s : lists) (h : list (option nat)) (n : nat) : Prop :=
  match n with
  | O => True
  | S n => match p h with None => True | Some o => proper s o /\ forall s1 x, spec s o s1 x -> disciplined p s1 (x :: h) n end
  end.
