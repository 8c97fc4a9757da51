(** Specification vocabulary. *)
From Coq Require Import ZArith List Bool Sorted.
From Verif.Alarm Require Import Model.
Import ListNotations.
Open Scope Z_scope.
(** earlier deadline, or same deadline and registered earlier *)
Definition before (a b : node) : Prop := deadline a < deadline b \/ deadline a = deadline b /\ (seq a < seq b)%nat.
Definition ordered (l : list node) : Prop := StronglySorted before l.
Definition expired (t : Z) (n : node) : bool := deadline n <? t.
(** states reachable by operations at non-decreasing clock readings, periods non-negative *)
Definition op_ok (o : op) : Prop := match o with Register _ _ per => 0 <= per | _ => True end.
Inductive reach (t0 : Z) : st -> Prop :=
  | reach_init : reach t0 (init t0)
  | reach_step s t o s' fs : reach t0 s -> now s <= t -> op_ok o -> step s t o = Some (s', fs) -> reach t0 s'.
(** nodes re-armed by a tick at time t, numbered from stp *)
Fixpoint rearmed (t : Z) (stp : nat) (fs : list node) : list node :=
  match fs with
  | [] => []
  | n :: r => if 0 <? period n then N (id n) (t + period n) (period n) stp :: rearmed t (S stp) r else rearmed t stp r
  end.
