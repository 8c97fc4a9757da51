(** What parking and unparking should mean, without tickets: [park] waits for a matching [unpark]; at most one unpark may
    be ahead of its park. *)
From Coq Require Import Arith.

(** [p] parks and [u] unparks called so far. *)
(** the thread may be executing user code *)
Definition may_run (p u : nat) : Prop := p <= u <= S p.
(** the thread's latest park is unmatched *)
Definition unmatched (p u : nat) : Prop := p = S u.
(** one more unpark is one too many *)
Definition too_many (p u : nat) : Prop := p < u.
