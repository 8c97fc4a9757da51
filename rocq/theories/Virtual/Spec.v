(** Ancestors by single inheritance; the declaration to use for a type id *)
From Coq Require Import List Bool Arith.
Import ListNotations.
Section Ancestors.
Context (w : nat -> nat).
(** c, its parent, and so on *)
Inductive ancestor (p : nat) : nat -> Prop :=
| anc_self : p <> 0 -> ancestor p p
| anc_up : forall c, c <> 0 -> ancestor p (w c) -> ancestor p c.
(** c has n ancestors, itself included *)
Inductive depth : nat -> nat -> Prop :=
| depth_null : depth 0 0
| depth_up : forall c n, c <> 0 -> depth n (w c) -> depth (S n) c.
End Ancestors.
(** the first definition, or else the first declaration *)
Definition first (P : nat * bool -> bool) (k : nat) (l : list (nat * (nat * bool))) : option (nat * bool) :=
  option_map snd (find (fun x => (k =? fst x) && P (snd x)) l).
Definition chosen (k : nat) (l : list (nat * (nat * bool))) : option (nat * bool) :=
  match first (fun d => negb (snd d)) k l with Some d => Some d | None => first (fun _ => true) k l end.
