(** What is chosen: per type the candidate with the least cost, then the least conversion cost; a tie between candidates that use no deleted identifier is ambiguous. *)
From Coq Require Import ZArith List Bool Arith.
From Verif Require Import Cost.Model Prune.Model.
Import ListNotations.
Definition beats (c d : cand) : bool := ltb (cost c) (cost d) || (Z.eqb (cost c) (cost d) && ltb (cvt c) (cvt d)).
Definition of_type (k : nat) (l : list cand) : list cand := filter (fun c => Nat.eqb (key c) k) l.
(** the candidates that no other one of the list beats *)
Definition best (l : list cand) : list cand := filter (fun c => forallb (fun d => negb (beats d c)) l) l.
Definition live (l : list cand) : list cand := filter (fun c => negb (deleted c)) l.
Definition choice (l : list cand) : option cand :=
  match live (best l), best l with
  | [c], _ => Some c
  | [], c :: _ => Some c
  | _, _ => None
  end.
(** all candidates whose assertions are satisfied *)
Definition all (l : list pre) : list cand := flat_map sats l.
(** satisfying the assertions lowers no cost; it keeps the type, or the type before is no type of the others (it had unbound type variables, whose names are unique) *)
Definition sane (l : list pre) : Prop :=
  (forall p c, In p l -> In c (sats p) -> ltb (cost c) (cost (pcand p)) = false) /\
  (forall a p b, l = a ++ p :: b -> (forall c, In c (sats p) -> key c = key (pcand p)) \/ (forall c, In c (all (a ++ b)) -> key c <> key (pcand p))).
