(** Model of the barrier, libcfa/src/concurrency/barrier.hfa:26-62.  The barrier is a monitor: a call to block is one
    transition.  A thread that waits on c$ is kept with the arrival number it saved in its local variable; signal_all
    makes all of them return (monitor hand-off, no barging; the order in which they get out is not significant here).
    size_t arithmetic is modulo 2^64.  Callbacks are only recorded as having run. *)
From Coq Require Import ZArith List.
Import ListNotations.
Open Scope Z_scope.

Record barrier := B { group : Z; arrivals : Z; waiting : list (nat * Z) }.
(** barrier.hfa:32-35 *)
Definition init (n : Z) : barrier := B n n [].
Definition dec (z : Z) : Z := (z - 1) mod 2 ^ 64.
(** barrier.hfa:47-62: new state, threads returning with their results, whether the callback ran (before them) *)
Definition block (b : barrier) (t : nat) : barrier * list (nat * Z) * bool :=
  let a := dec (arrivals b) in
  if a =? 0 then (B (group b) (group b) [], waiting b ++ [(t, a)], true)
  else (B (group b) a (waiting b ++ [(t, a)]), [], false).
(** barrier.hfa:38-39 *)
Definition waiters (b : barrier) : Z := (group b - arrivals b) mod 2 ^ 64.
Fixpoint run (b : barrier) (ts : list nat) : barrier * list (list (nat * Z) * bool) :=
  match ts with
  | [] => (b, [])
  | t :: r => let '(b1, o, c) := block b t in let (b2, os) := run b1 r in (b2, (o, c) :: os)
  end.
