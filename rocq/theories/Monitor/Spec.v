(** What users of monitors are promised. *)
From Coq Require Import List Arith.
Import ListNotations.
(** [inside t m]: thread t is executing inside monitor m. *)
Definition exclusive (inside : nat -> nat -> Prop) : Prop := forall t u m, inside t m -> inside u m -> t = u.
(** A call: function and the monitors it locks, in address order. *)
Notation gcall := (nat * list nat)%type.
(** A waitfor mask admits exactly the listed calls. *)
Definition admits (mask : list gcall) (c : gcall) : Prop := In c mask.
