(** libcfa/src/collections/lockfree.hfa:9-122: mpsc_queue (push 75-79 on top of mcs_queue push 25-33; pop 86-115 on top of
    advance 39-53). Any number of producers, one consumer, one transition per memory access, sequentially consistent
    memory. Nodes may be pushed again once pop has returned them. *)
From Coq Require Import List Bool Arith.
Import ListNotations.

(** PXchg: about to exchange the tail (28); PLink a: about to write the predecessor's link (31); PHead: about to write head (77) *)
Inductive ppc := PIdle | PXchg (n : nat) | PLink (a n : nat) | PHead (n : nat).
(** CChk: 92; CHead: 93; CClr: 98; CNull: 105; CCas: 42; CSpin: 45-48; CClr2: 51; CSet: 111 *)
Inductive cpc := CIdle | CChk (e : nat) | CHead (e : nat) | CClr (e : nat) | CNull (e : nat) | CCas (e : nat) | CSpin (e : nat)
  | CClr2 (e r : nat) | CSet (e r : nat).
Record st := S_ {
  tail : option nat; head : option nat; next : nat -> option nat;
  use : nat -> bool;               (* node handed to push, pop has not returned it yet *)
  pp : nat -> ppc; cp : cpc;
  arr : list nat;                  (* ghost: elements in the order of the tail exchanges *)
  out : list nat                   (* elements returned by pop, in order *)
}.
Definition upd {A} (f : nat -> A) (i : nat) (x : A) : nat -> A := fun j => if j =? i then x else f j.
Definition init : st := S_ None None (fun _ => None) (fun _ => false) (fun _ => PIdle) CIdle [] [].
Inductive act := Call (p n : nat) | Prod (p : nat) | Cons.
Definition cgo (s : st) (h : option nat) (nx : nat -> option nat) (k : cpc) : st := S_ (tail s) h nx (use s) (pp s) k (arr s) (out s).
Definition ret (s : st) (t h : option nat) (nx : nat -> option nat) (e : nat) : st :=
  S_ t h nx (upd (use s) e false) (pp s) CIdle (arr s) (out s ++ [e]).
Definition step (s : st) (a : act) : option st :=
  match a with
  | Call p n => match pp s p with
                | PIdle => if use s n then None else Some (S_ (tail s) (head s) (next s) (upd (use s) n true) (upd (pp s) p (PXchg n)) (cp s) (arr s) (out s))
                | _ => None
                end
  | Prod p =>
      match pp s p with
      | PIdle => None
      | PXchg n => Some (S_ (Some n) (head s) (next s) (use s) (upd (pp s) p (match tail s with Some x => PLink x n | None => PHead n end)) (cp s) (arr s ++ [n]) (out s))
      | PLink x n => Some (S_ (tail s) (head s) (upd (next s) x (Some n)) (use s) (upd (pp s) p PIdle) (cp s) (arr s) (out s))
      | PHead n => Some (S_ (tail s) (Some n) (next s) (use s) (upd (pp s) p PIdle) (cp s) (arr s) (out s))
      end
  | Cons =>
      match cp s with
      | CIdle => match head s with None => Some s | Some e => Some (cgo s (head s) (next s) (CChk e)) end   (* 87-89: pop called *)
      | CChk e => Some (cgo s (head s) (next s) (match next s e with Some _ => CHead e | None => CNull e end))
      | CHead e => Some (cgo s (next s e) (next s) (CClr e))
      | CClr e => Some (ret s (tail s) (head s) (upd (next s) e None) e)
      | CNull e => Some (cgo s None (next s) (CCas e))
      | CCas e => if match tail s with Some x => x =? e | None => false end then Some (ret s None (head s) (next s) e) else Some (cgo s (head s) (next s) (CSpin e))
      | CSpin e => match next s e with None => Some s | Some r => Some (cgo s (head s) (next s) (CClr2 e r)) end
      | CClr2 e r => Some (cgo s (head s) (upd (next s) e None) (CSet e r))
      | CSet e r => Some (ret s (tail s) (Some r) (next s) e)
      end
  end.
Inductive reach : st -> Prop :=
| r_init : reach init
| r_step s a s' : reach s -> step s a = Some s' -> reach s'.
