(** libcfa/src/collections/lockfree.hfa:197-238: StackLF. One transition per memory access. The stack word is changed by
    128-bit compare-and-swap only; all other accesses to 128-bit words go by halves, in either order ([c] chooses). The
    version counter is a natural number (it does not wrap). [ntop], [ncnt]: the link of a node. *)
From Coq Require Import List Bool Arith.
From Verif.LockFree Require Import Spec.
Import ListNotations.

(** Push n: 225 nothing copied yet; PushT/PushN: a half read, about to be written to the link, [d]: other half done;
    PushF: failed 227, observed value about to be written to the link; PushC: about to compare-and-swap (227).
    PopA: 232 nothing read; PopT: top read; PopN: counter read; Pop1: 234-235; PopC: 236. *)
Inductive pc :=
| Idle
| Push (n : nat) (dt dn : bool) | PushT (n : nat) (dn : bool) (x : option nat) | PushN (n : nat) (dt : bool) (y : nat)
| PushF (n : nat) (x : option nat) (y : nat) | PushG (n : nat) (y : nat) | PushC (n : nat)
| PopA | PopT (x : option nat) | PopN (y : nat) | Pop1 (x : option nat) (y : nat) | PopC (x : nat) (y : nat) (nx : option nat).
Record st := S_ {
  top : option nat; cnt : nat;                     (* the stack word *)
  ntop : nat -> option nat; ncnt : nat -> nat;     (* links of the nodes *)
  use : nat -> bool;                               (* node handed to push and not yet popped *)
  pcs : nat -> pc;
  lg : list (nat * ev)                             (* ghost: operations in the order they took effect, oldest first *)
}.
Definition upd {A} (f : nat -> A) (i : nat) (x : A) : nat -> A := fun j => if j =? i then x else f j.
Definition init : st := S_ None 0 (fun _ => None) (fun _ => 0) (fun _ => false) (fun _ => Idle) [].
Definition oeqb (a b : option nat) : bool := match a, b with Some x, Some y => x =? y | None, None => true | _, _ => false end.
Definition setp (s : st) (t : nat) (k : pc) : st := S_ (top s) (cnt s) (ntop s) (ncnt s) (use s) (upd (pcs s) t k) (lg s).
(** thread t has just observed top = x: the empty stack fixes the result of pop *)
Definition seen (s : st) (t : nat) (x : option nat) (k : pc) : st :=
  S_ (top s) (cnt s) (ntop s) (ncnt s) (use s) (upd (pcs s) t k) (match x with None => lg s ++ [(t, EPop None)] | Some _ => lg s end).

Inductive call := CPush (n : nat) | CPop | Go (c : bool).
Definition step (s : st) (t : nat) (a : call) : option st :=
  match pcs s t, a with
  | Idle, CPush n => (* the caller owns n *)
      if use s n then None else Some (S_ (top s) (cnt s) (ntop s) (ncnt s) (upd (use s) n true) (upd (pcs s) t (Push n false false)) (lg s))
  | Idle, CPop => Some (setp s t PopA)
  | Push n dt dn, Go c =>
      if dt && dn then Some (setp s t (PushC n))
      else if (c || dn) && negb dt then Some (setp s t (PushT n dn (top s))) else Some (setp s t (PushN n dt (cnt s)))
  | PushT n dn x, Go _ => Some (S_ (top s) (cnt s) (upd (ntop s) n x) (ncnt s) (use s) (upd (pcs s) t (Push n true dn)) (lg s))
  | PushN n dt y, Go _ => Some (S_ (top s) (cnt s) (ntop s) (upd (ncnt s) n y) (use s) (upd (pcs s) t (Push n dt true)) (lg s))
  | PushC n, Go _ =>
      if oeqb (top s) (ntop s n) && (cnt s =? ncnt s n)
      then Some (S_ (Some n) (ncnt s n + 1) (ntop s) (ncnt s) (use s) (upd (pcs s) t Idle) (lg s ++ [(t, EPush n)]))
      else Some (setp s t (PushF n (top s) (cnt s)))
  | PushF n x y, Go _ => Some (S_ (top s) (cnt s) (upd (ntop s) n x) (ncnt s) (use s) (upd (pcs s) t (PushG n y)) (lg s))
  | PushG n y, Go _ => Some (S_ (top s) (cnt s) (ntop s) (upd (ncnt s) n y) (use s) (upd (pcs s) t (PushC n)) (lg s))
  | PopA, Go c => if c then Some (seen s t (top s) (PopT (top s))) else Some (setp s t (PopN (cnt s)))
  | PopT x, Go _ => Some (setp s t (Pop1 x (cnt s)))
  | PopN y, Go _ => Some (seen s t (top s) (Pop1 (top s) y))
  | Pop1 x y, Go _ => match x with
                      | None => Some (setp s t Idle)                       (* return 0p *)
                      | Some n => Some (setp s t (PopC n y (ntop s n)))
                      end
  | PopC x y nx, Go _ =>
      if oeqb (top s) (Some x) && (cnt s =? y)
      then Some (S_ nx y (ntop s) (ncnt s) (upd (use s) x false) (upd (pcs s) t Idle) (lg s ++ [(t, EPop (Some x))]))  (* return x *)
      else Some (seen s t (top s) (Pop1 (top s) (cnt s)))
  | _, _ => None
  end.
Inductive reach : st -> Prop :=
| r_init : reach init
| r_step s t a s' : reach s -> step s t a = Some s' -> reach s'.
