(** Queue locks: libcfa/src/collections/lockfree.hfa:9-54 (mcs_queue push, advance), libcfa/src/concurrency/locks.hfa:152-178
    (mcs_lock) and 181-237 (mcs_spin_lock). One transition per memory access; sequentially consistent memory.
    Every thread has one node, used for all its acquisitions; [next] and [ok] belong to the node. [ok t]: the node's
    semaphore is posted (mcs_lock; single_sem is [Verif.OneShot]) or its [locked] flag is false (mcs_spin_lock).
    Only the holder unlocks, with its own node. *)
From Coq Require Import List Bool Arith.
Import ListNotations.

(** mcs_lock; mcs_spin_lock with a node constructed anew for every acquisition; mcs_spin_lock with a reused node. *)
Inductive kind := Block | SpinFresh | SpinReuse.
(** Start: about to exchange the tail; Link p: about to write the predecessor's link; Wait; Hold; Cas: unlock, about to
    compare-and-swap the tail; Succ: waiting for the successor's link; Clear r: about to reset the own link; Grant r: about
    to let r in. *)
Inductive pc := Idle | Start | Link (p : nat) | Wait | Hold | Cas | Succ | Clear (r : nat) | Grant (r : nat).
Record st := S_ {
  tail : option nat; next : nat -> option nat; ok : nat -> bool; pcs : nat -> pc;
  arr : list nat;   (* ghost: threads in the order of their tail exchanges *)
  ent : list nat    (* ghost: threads in the order they entered *)
}.
Definition upd {A} (f : nat -> A) (i : nat) (x : A) : nat -> A := fun j => if j =? i then x else f j.
Definition init : st := S_ None (fun _ => None) (fun _ => false) (fun _ => Idle) [] [].
Definition setp (s : st) (t : nat) (k : pc) : st := S_ (tail s) (next s) (ok s) (upd (pcs s) t k) (arr s) (ent s).

Definition step (k : kind) (s : st) (t : nat) : option st :=
  match pcs s t with
  | Idle => (* call lock: node constructor (locks.hfa:158, 194), then locks.hfa:201 *)
      Some (S_ (tail s) (match k with SpinFresh => upd (next s) t None | _ => next s end)
               (match k with Block => ok s | _ => upd (ok s) t false end) (upd (pcs s) t Start) (arr s) (ent s))
  | Start => (* lockfree.hfa:28, locks.hfa:207-208 *)
      match tail s with
      | None => Some (S_ (Some t) (next s) (ok s) (upd (pcs s) t Hold) (arr s ++ [t]) (ent s ++ [t]))
      | Some p => Some (S_ (Some t) (next s) (ok s) (upd (pcs s) t (Link p)) (arr s ++ [t]) (ent s))
      end
  | Link p => Some (S_ (tail s) (upd (next s) p (Some t)) (ok s) (upd (pcs s) t Wait) (arr s) (ent s)) (* lockfree.hfa:31, locks.hfa:209 *)
  | Wait => (* locks.hfa:172, 215 *)
      if ok s t then Some (S_ (tail s) (next s) (match k with Block => upd (ok s) t false | _ => ok s end) (upd (pcs s) t Hold) (arr s) (ent s ++ [t]))
      else Some s
  | Hold => Some (setp s t Cas) (* call unlock *)
  | Cas => (* lockfree.hfa:42, locks.hfa:228 *)
      match tail s with
      | Some x => if x =? t then Some (S_ None (next s) (ok s) (upd (pcs s) t Idle) (arr s) (ent s)) else Some (setp s t Succ)
      | None => Some (setp s t Succ)
      end
  | Succ => (* lockfree.hfa:45-48, locks.hfa:229, 235 *)
      match next s t with
      | None => Some s
      | Some r => Some (setp s t (match k with Block => Clear r | _ => Grant r end))
      end
  | Clear r => Some (S_ (tail s) (upd (next s) t None) (ok s) (upd (pcs s) t (Grant r)) (arr s) (ent s)) (* lockfree.hfa:51 *)
  | Grant r => Some (S_ (tail s) (next s) (upd (ok s) r true) (upd (pcs s) t Idle) (arr s) (ent s)) (* locks.hfa:177, 235 *)
  end.
Inductive reach (k : kind) : st -> Prop :=
| r_init : reach k init
| r_step s t s' : reach k s -> step k s t = Some s' -> reach k s'.

(** libcfa/src/concurrency/locks.hfa:667-745 spin_queue_lock and mcs_block_spin_lock: the holder of the inner queue lock spins
    on [held], sets it and releases the inner lock. [lock] builds a new inner node on the stack each time. *)
Inductive phase := PIdle | PAcq | PSet | PRel | PHold.
Record st2 := S2 { inn : st; held : bool; ph : nat -> phase }.
Definition init2 : st2 := S2 init false (fun _ => PIdle).
Definition step2 (k : kind) (z : st2) (t : nat) : option st2 :=
  let inner p := match step k (inn z) t with Some i => Some (S2 i (held z) (upd (ph z) t p)) | None => None end in
  match ph z t with
  | PIdle => inner PAcq
  | PAcq => match pcs (inn z) t with
            | Hold => Some (if held z then z else S2 (inn z) (held z) (upd (ph z) t PSet)) (* 694, 734 *)
            | _ => inner PAcq
            end
  | PSet => Some (S2 (inn z) true (upd (ph z) t PRel))                                     (* 695, 735 *)
  | PRel => match pcs (inn z) t with Idle => Some (S2 (inn z) (held z) (upd (ph z) t PHold)) | _ => inner PRel end (* 696, 736 *)
  | PHold => Some (S2 (inn z) false (upd (ph z) t PIdle))                                  (* 700, 740 *)
  end.
Inductive reach2 (k : kind) : st2 -> Prop :=
| r2_init : reach2 k init2
| r2_step z t z' : reach2 k z -> step2 k z t = Some z' -> reach2 k z'.
