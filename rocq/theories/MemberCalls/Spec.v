(** Executions of bodies and what is required of them *)
From Coq Require Import List Bool Arith.
From Verif.MemberCalls Require Import Model.
Import ListNotations.
Inductive ev := EInit (m : nat) | EDeleg | EUse (m : nat).
(** any branch, any number of iterations; true: by return *)
Inductive run : stmt -> list ev -> bool -> Prop :=
| run_init m us : run (SInit m us) (map EUse us ++ [EInit m]) false
| run_deleg : run SDeleg [EDeleg] false
| run_use m : run (SUse m) [EUse m] false
| run_ret : run SRet [] true
| run_then a b t r : runs a t r -> run (SIf a b) t r
| run_else a b t r : runs b t r -> run (SIf a b) t r
| run_stop b : run (SLoop b) [] false
| run_loop_ret b t : runs b t true -> run (SLoop b) t true
| run_loop b t t' r : runs b t false -> run (SLoop b) t' r -> run (SLoop b) (t ++ t') r
with runs : list stmt -> list ev -> bool -> Prop :=
| runs_nil : runs [] [] false
| runs_ret x l t : run x t true -> runs (x :: l) t true
| runs_cons x l t t' r : run x t false -> runs l t' r -> runs (x :: l) (t ++ t') r.
Scheme run_ind2 := Induction for run Sort Prop with runs_ind2 := Induction for runs Sort Prop.
Combined Scheme run_both from run_ind2, runs_ind2.
(** how often a member is constructed: delegation constructs all members *)
Definition is_init (m : nat) (e : ev) : bool := match e with EInit x => x =? m | EDeleg => true | EUse _ => false end.
Definition inits (m : nat) (t : list ev) : nat := length (filter (is_init m) t).
Definition before_use (m : nat) (t : list ev) : Prop := forall a b, t = a ++ EUse m :: b -> 0 < inits m a.
(** the explicit calls *)
Fixpoint handles (m : nat) (x : stmt) : bool := match x with SInit y _ => y =? m | SDeleg => true | SIf a b => existsb (handles m) a || existsb (handles m) b | SLoop b => existsb (handles m) b | _ => false end.
Fixpoint plain (x : stmt) : bool := match x with SInit _ _ | SDeleg => false | SIf a b => forallb plain a && forallb plain b | SLoop b => forallb plain b | _ => true end.
Fixpoint noret (x : stmt) : bool := match x with SRet => false | SIf a b => forallb noret a && forallb noret b | SLoop b => forallb noret b | _ => true end.
(** the explicit calls are statements of the body itself, before any return *)
Fixpoint top (l : list stmt) : bool :=
  match l with
  | [] => true
  | (SInit _ _ | SDeleg) :: r => top r
  | x :: r => plain x && ((noret x && top r) || forallb plain r)
  end.
(** m is called for explicitly n times *)
Definition times (m : nat) (l : list stmt) : nat := length (filter (fun x => match x with SInit y _ => y =? m | SDeleg => true | _ => false end) l).
(** The arguments of the explicit call do not use the member itself *)
Definition clean (x : stmt) : bool := match x with SInit y us => negb (existsb (Nat.eqb y) us) | _ => true end.
