(* unique_ptr: /repo/libcfa/src/memory.cfa, lines 118-184 (memory.hfa, lines
   68-106), with delete, /repo/libcfa/src/stdlib.hfa, lines 316-322.

   As for counter_ptr (CounterPtr/Model.v): objects may contain unique_ptrs
   (fields), which their destructor destroys; numbers of objects are not used
   again.  A raw pointer that release returned is kept in a variable of the
   program and deleted there at most once.  Copying a unique_ptr is rejected by
   the compiler (memory.hfa:77, 88). *)

From Coq Require Import List Bool Arith.
From Verif.CounterPtr Require Import Model.
Import ListNotations.

Record ustate := mkU {
  uptrs : list (place * option nat);
  uobjs : list (nat * nat);           (* allocated: number of fields *)
  unext : nat
}.

Inductive uoutcome := UOk (s : ustate) | UUndef | UStuck | UNoFuel.

Definition ubind (r : uoutcome) (f : ustate -> uoutcome) : uoutcome :=
  match r with UOk s => f s | _ => r end.

Definition ufind (o : nat) (l : list (nat * nat)) : option nat :=
  match find (fun e => Nat.eqb (fst e) o) l with Some e => Some (snd e) | None => None end.
Definition uorem (o : nat) (l : list (nat * nat)) := filter (fun e => negb (Nat.eqb (fst e) o)) l.

(* stdlib.hfa:316-322 delete and memory.cfa:135-138 ^?{}; the recursion of
   destructors is a list of work to do.  WDrop p: delete what p points to, p is
   not used again. *)
Fixpoint udrain (fuel : nat) (s : ustate) (wl : list work) : uoutcome :=
  match wl with
  | [] => UOk s
  | w :: wl' =>
      match fuel with
      | 0 => UNoFuel
      | S n =>
          match w with
          | WDrop p =>
              match lookup p (uptrs s) with
              | None => UUndef
              | Some None => udrain n (mkU (rem p (uptrs s)) (uobjs s) (unext s)) wl'
              | Some (Some o) =>
                  match ufind o (uobjs s) with
                  | None => UUndef
                  | Some k => udrain n (mkU (rem p (uptrs s)) (uobjs s) (unext s)) (fields o k ++ WFree o :: wl')
                  end
              end
          | WFree o =>
              match ufind o (uobjs s) with
              | None => UUndef
              | Some _ => udrain n (mkU (uptrs s) (uorem o (uobjs s)) (unext s)) wl'
              end
          end
      end
  end.

Definition udrop (s : ustate) (p : place) : uoutcome :=
  udrain (length (uptrs s) + length (uobjs s)) s [WDrop p].

Definition uput (s : ustate) (p : place) (v : option nat) : ustate :=
  mkU ((p, v) :: uptrs s) (uobjs s) (unext s).

(* p, a constructed pointer, gets the value v. *)
Definition uset (s : ustate) (p : place) (v : option nat) : ustate :=
  mkU ((p, v) :: rem p (uptrs s)) (uobjs s) (unext s).

(* memory.cfa:151-156 *)
Definition umove (s : ustate) (p q : place) : uoutcome :=
  match lookup p (uptrs s) with
  | None => UUndef
  | Some _ =>
      ubind (udrop s p) (fun s1 =>
        if place_dec p q then UOk (uput s1 p None)     (* reads what it deleted, then clears it *)
        else match lookup q (uptrs s1) with
             | None => UUndef                          (* that was destroyed by the delete *)
             | Some w => UOk (uset (uput s1 p w) q None)
             end)
  end.

Inductive uop :=
  | UNull (x : nat)                   (* unique_ptr(T) x, or x = 0p *)
  | UNew (x k : nat)                  (* unique_ptr(T) x = args, T with k fields *)
  | UDrop (x : nat)                   (* the end of x; for a released pointer: delete(x) *)
  | UMove (p q : place)               (* move(p, q) *)
  | UAssignNull (p : place)           (* p = 0 *)
  | URelease (x : nat) (p : place).   (* T * x = release(p) *)

Definition ustep (s : ustate) (o : uop) : uoutcome :=
  match o with
  | UNull x =>                                        (* memory.cfa:119-127 *)
      match lookup (Var x) (uptrs s) with Some _ => UStuck | None => UOk (uput s (Var x) None) end
  | UNew x k =>                                       (* memory.cfa:129-133 *)
      match lookup (Var x) (uptrs s) with
      | Some _ => UStuck
      | None => UOk (mkU ((Var x, Some (unext s)) :: map (fun f => (Field (unext s) f, None)) (seq 0 k) ++ uptrs s)
                         ((unext s, k) :: uobjs s) (S (unext s)))
      end
  | UDrop x =>
      match lookup (Var x) (uptrs s) with None => UStuck | Some _ => udrop s (Var x) end
  | UMove p q => umove s p q
  | UAssignNull p =>                                  (* memory.cfa:145-149 *)
      match lookup p (uptrs s) with
      | None => UUndef
      | Some _ => ubind (udrop s p) (fun s1 => UOk (uput s1 p None))
      end
  | URelease x p =>                                   (* memory.cfa:158-163 *)
      match lookup (Var x) (uptrs s), lookup p (uptrs s) with
      | Some _, _ => UStuck
      | None, None => UUndef
      | None, Some v => UOk (uset (uput s (Var x) v) p None)
      end
  end.

Definition ustart : ustate := mkU [] [] 0.

Fixpoint uexec (s : ustate) (l : list uop) : uoutcome :=
  match l with [] => UOk s | o :: l' => ubind (ustep s o) (fun s1 => uexec s1 l') end.
