(** Programs that use preemption properly: calls of disable_interrupts and enable_interrupts are nested and fewer than the limit, a thread yields or parks only with preemption enabled *)
From Coq Require Import List Bool Arith.
From Verif.Preempt Require Import Model.
Import ListNotations.
Inductive proper (limit : nat) : nat -> list instr -> Prop :=
| p_nil : proper limit 0 []
| p_work n p : proper limit n p -> proper limit n (Work :: p)
| p_poll n p : proper limit n p -> proper limit n (Poll :: p)
| p_disable n p : S n < limit -> proper limit (S n) p -> proper limit n (DisA false :: DisB :: p)
| p_enable n b p : proper limit n p -> proper limit (S n) (EnaA b :: p)
| p_yield p : proper limit 0 p -> proper limit 0 (force_yield ++ p)
| p_park p : proper limit 0 p -> proper limit 0 (park ++ p).
(** k runs t, whose next instruction is i *)
Definition runs (s : st) (k t : nat) (i : instr) : Prop := cur (kts s k) = Some t /\ exists c, cont s t = i :: c.
