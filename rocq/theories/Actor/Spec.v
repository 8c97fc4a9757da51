(* What the executor promises. *)

From Coq Require Import List Arith Bool.
From Verif.ActorQueue Require Import Model.
From Verif.Actor Require Import Model.
Import ListNotations.

(* The requests to actor a, in order. *)
Definition for_actor (a : nat) (l : list req) : list req := filter (fun r => rcv r =? a) l.

Definition some {A} (x : option A) : list A := match x with Some a => [a] | None => [] end.

(* The requests in a copy queue. *)
Definition content (b : cq) : list req := flat_map some (firstn (count b) (skipn (index b) (buf b))).

(* Worker k is in the receive routine of actor a, or of any actor. *)
Definition receiving (k : worker) : list req := match at_ k with Busy _ _ r => [r] | _ => [] end.

(* The work queue worker k took out of the array of queues to swap it. *)
Definition in_hand (k : worker) : list nat :=
  match at_ k with
  | SwapD _ _ _ my _ => some my
  | SwapE _ _ my => some my
  | SwapF _ _ o => [o]
  | _ => []
  end.
