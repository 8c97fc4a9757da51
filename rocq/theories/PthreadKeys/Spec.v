(* What POSIX promises about thread-specific data, without tables or lists: a
   key is alive or not and has a destructor; each thread has a value for each
   key, NULL when the key is created; when a thread ends, its non-NULL values
   of living keys with a destructor are owed a call, and each such call happens
   once before the thread is gone, unless the key is deleted first. *)

From Coq Require Import List Bool Arith.
From Verif.PthreadKeys Require Import Model.
Import ListNotations.

Record astate := mkA {
  alive : nat -> bool;
  adtor : nat -> nat;
  avals : nat -> nat -> nat;       (* thread, key *)
  owed : nat -> nat -> nat         (* thread, key: argument still owed, or 0 *)
}.

Definition ainit : astate := mkA (fun _ => false) (fun _ => 0) (fun _ _ => 0) (fun _ _ => 0).

Section Spec.
Variable N : nat.

Definition live (a : astate) (k : nat) : Prop := k < N /\ alive a k = true.

Inductive allowed : astate -> label -> res -> astate -> Prop :=
  | a_create : forall a d k,
      k < N -> alive a k = false ->
      allowed a (LCreate d) (RKey k)
        (mkA (upd (alive a) k true) (upd (adtor a) k d)
             (fun t => upd (avals a t) k 0) (owed a))
  | a_nocreate : forall a d,
      (forall k, k < N -> alive a k = true) ->
      allowed a (LCreate d) REAgain a
  | a_delete : forall a k, live a k ->
      allowed a (LDelete k) ROk
        (mkA (upd (alive a) k false) (adtor a) (avals a) (fun t => upd (owed a t) k 0))
  | a_nodelete : forall a k, ~ live a k -> allowed a (LDelete k) REInval a
  | a_set : forall a t k v, live a k ->
      allowed a (LSet t k v) ROk
        (mkA (alive a) (adtor a) (upd (avals a) t (upd (avals a t) k v)) (owed a))
  | a_noset : forall a t k v, ~ live a k -> allowed a (LSet t k v) REInval a
  | a_get : forall a t k, live a k -> allowed a (LGet t k) (RVal (avals a t k)) a
  | a_noget : forall a t k, ~ live a k -> allowed a (LGet t k) (RVal 0) a
  | a_end : forall a t j r w,
      (forall k, w k = if Nat.ltb k N && alive a k && negb (Nat.eqb (adtor a k) 0) then avals a t k else 0) ->
      (r = RGone -> forall k, w k = 0) -> (r = RNone \/ r = RGone) ->
      allowed a (LEnd t j) r (mkA (alive a) (adtor a) (avals a) (upd (owed a) t w))
  | a_scan : forall a t, allowed a (LScan t) RNone a
  | a_gone : forall a t, (forall k, owed a t k = 0) -> allowed a (LScan t) RGone a
  | a_call : forall a t k v,
      live a k -> v <> 0 -> owed a t k = v -> adtor a k <> 0 ->
      allowed a (LCall t) (RCall k (adtor a k) v)
        (mkA (alive a) (adtor a) (avals a) (upd (owed a) t (upd (owed a t) k 0)))
  | a_back : forall a t, allowed a (LBack t) RNone a.

Inductive accepts : astate -> list (label * res) -> astate -> Prop :=
  | acc_nil : forall a, accepts a [] a
  | acc_cons : forall a l r a1 tr a2,
      allowed a l r a1 -> accepts a1 tr a2 -> accepts a ((l, r) :: tr) a2.
End Spec.

(* What a program sees of keys and values: the answers to create, delete, set
   and get. *)
Definition is_table_op (l : label) : bool :=
  match l with LCreate _ | LDelete _ | LSet _ _ _ | LGet _ _ => true | _ => false end.

(* A key is not deleted while its destructor is about to be called. *)
Definition polite (s : state) (l : label) : Prop :=
  match l with
  | LDelete k => forall t att, st s t <> Calling att k
  | _ => True
  end.

Section Runs.
Variable N junk : nat.

(* Runs in which every step is polite. *)
Inductive prun : state -> list (label * res) -> state -> Prop :=
  | prun_nil : forall s, prun s [] s
  | prun_cons : forall s l r s1 tr s2,
      polite s l -> step N junk s l = Ok s1 r -> prun s1 tr s2 -> prun s ((l, r) :: tr) s2.

(* Acceptance of the table operations alone. *)
Inductive accepts_tab : astate -> list (label * res) -> astate -> Prop :=
  | at_nil : forall a, accepts_tab a [] a
  | at_op : forall a l r a1 tr a2, is_table_op l = true ->
      allowed N a l r a1 -> accepts_tab a1 tr a2 -> accepts_tab a ((l, r) :: tr) a2
  | at_skip : forall a l r tr a2, is_table_op l = false ->
      accepts_tab a tr a2 -> accepts_tab a ((l, r) :: tr) a2.

End Runs.
