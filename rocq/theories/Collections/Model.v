(** Intrusive Stack, Queue and Sequence: libcfa/src/bits/{collection,stack,queue,sequence}.hfa, with the debug checks.
    A null pointer is None; dereferencing one, a failed check, and a loop not finished after k steps are None results. *)
From Coq Require Import List Bool Arith.
From Verif.Collections Require Import Spec.
Import ListNotations.
Definition upd {A} (f : nat -> A) (i : nat) (x : A) : nat -> A := fun j => if j =? i then x else f j.
Definition onb (a b : option nat) : bool := match a, b with Some x, Some y => x =? y | None, None => true | _, _ => false end.
(** Colable.next, Seqable.back (collection.hfa 19-23, sequence.hfa 22-26) by node; Collection.root (61-63) and Queue.last (queue.hfa 14) by list *)
Record heap := H { nxt : nat -> option nat; bck : nat -> option nat; root : nat -> option nat; last : nat -> option nat }.
Definition init : heap := H (fun _ => None) (fun _ => None) (fun _ => None) (fun _ => None).
Definition setN h n x := H (upd (nxt h) n x) (bck h) (root h) (last h).
Definition setB h n x := H (nxt h) (upd (bck h) n x) (root h) (last h).
Definition setR h l x := H (nxt h) (bck h) (upd (root h) l x) (last h).
Definition setL h l x := H (nxt h) (bck h) (root h) (upd (last h) l x).
(** collection.hfa 33-35, 55-57; 74-80 *)
Definition listed h n : bool := match nxt h n with Some _ => true | None => false end.
Definition empty h l : bool := match root h l with None => true | Some _ => false end.

(** Stack: addHead, stack.hfa 33-40 *)
Definition s_add h l n : option heap :=
  if listed h n then None else
  Some (setR (setN h n (match root h l with Some r => Some r | None => Some n end)) l (Some n)).
(** drop, 50-58 *)
Definition s_drop h l : heap * option nat :=
  match root h l with
  | None => (h, None)
  | Some t =>
      let h1 := setR h l (nxt h t) in
      let h2 := if onb (root h1 l) (Some t) then setR h1 l None else h1 in
      (setN h2 t None, Some t)
  end.

(** Queue: succ, queue.hfa 35-42 *)
Definition q_succ h n : option (option nat) :=
  match nxt h n with None => None | Some m => Some (if m =? n then None else Some m) end.
(** addHead, 44-56 *)
Definition q_addHead h l n : option heap :=
  if listed h n then None else
  match last h l with
  | Some _ => Some (setR (setN h n (root h l)) l (Some n))
  | None => Some (setN (setR (setL h l (Some n)) l (Some n)) n (Some n))
  end.
(** addTail, 58-67 *)
Definition q_addTail h l n : option heap :=
  if listed h n then None else
  let h1 := match last h l with Some z => setN h z (Some n) | None => setR h l (Some n) end in
  Some (setN (setL h1 l (Some n)) n (Some n)).
(** dropHead, 73-83 *)
Definition q_dropHead h l : heap * option nat :=
  match root h l with
  | None => (h, None)
  | Some t =>
      let h1 := setR h l (nxt h t) in
      let h2 := if onb (root h1 l) (Some t) then setR (setL h1 l None) l None else h1 in
      (setN h2 t None, Some t)
  end.
(** remove, 89-116: the search for n returns prev *)
Fixpoint q_find h l n (prev : option nat) (curr k : nat) : option (option nat) :=
  match k with
  | 0 => None
  | S k' => if n =? curr then Some prev
            else if onb (Some curr) (last h l) then None
            else match nxt h curr with Some c => q_find h l n (Some curr) c k' | None => None end
  end.
Definition q_remove h l n k : option heap :=
  if negb (listed h n) then None else
  match root h l with
  | None => None
  | Some r =>
      match q_find h l n None r k with
      | None => None
      | Some prev =>
          if r =? n then Some (setN (fst (q_dropHead h l)) n None)
          else match prev with
               | None => None
               | Some p => let h1 := if onb (last h l) (Some n) then setN (setL h l (Some p)) p (Some p) else setN h p (nxt h n) in
                           Some (setN h1 n None)
               end
      end
  end.
(** dropTail, 118-121 *)
Definition q_dropTail h l k : option (heap * option nat) :=
  match last h l with None => Some (h, None) | Some n => match q_remove h l n k with Some h' => Some (h', Some n) | None => None end end.
(** transfer, 124-133: adding the list with the given root and last, and emptying the source *)
Definition q_append h s (fr fl : option nat) : option heap :=
  match fr with
  | None => Some h
  | Some _ =>
      match root h s with
      | None => Some (setL (setR h s fr) s fl)
      | Some _ => match last h s with Some z => Some (setL (setN h z fr) s fl) | None => None end
      end
  end.
Definition q_transfer h s f : option heap :=
  if empty h f then Some h else
  match q_append h s (root h f) (last h f) with Some h1 => Some (setR (setL h1 f None) f None) | None => None end.
(** split, 137-152; the local list to is its root and last *)
Definition q_split h s f n : option heap :=
  if negb (listed h n) then None else
  let tr := root h f in
  let h1 := setR h f (nxt h n) in
  let h2 := if onb (Some n) (root h1 f) then setR (setL h1 f None) f None else setN h1 n (Some n) in
  q_append h2 s tr (Some n).
(** StackIter and QueueIter, operator |, repeated (stack.hfa 93-100, queue.hfa 179-186) *)
Fixpoint s_iter h (curr : option nat) (k : nat) : option (list nat) :=
  match curr, k with
  | None, _ => Some []
  | Some _, 0 => None
  | Some t, S k' => let n := nxt h t in
                    match s_iter h (if onb n (Some t) then None else n) k' with Some r => Some (t :: r) | None => None end
  end.

(** Sequence: tail, sequence.hfa 77-79 *)
Definition d_tail h l : option nat := match root h l with Some r => bck h r | None => None end.
(** succ, pred 82-95 *)
Definition d_succ h l n : option (option nat) := if negb (listed h n) then None else Some (if onb (nxt h n) (root h l) then None else nxt h n).
Definition d_pred h l n : option (option nat) := if negb (listed h n) then None else Some (if onb (Some n) (root h l) then None else bck h n).
(** writes through a pointer field *)
Definition setN' h (p x : option nat) : option heap := match p with Some n => Some (setN h n x) | None => None end.
Definition setB' h (p x : option nat) : option heap := match p with Some n => Some (setB h n x) | None => None end.
(** the four writes putting n before b *)
Definition d_link h n b : option heap :=
  let h1 := setB (setN h n (Some b)) n (bck h b) in
  let h2 := setB h1 b (Some n) in
  setN' h2 (bck h2 n) (Some n).
(** the root part common to insertBef (103-118) and insertAft (136-149) *)
Definition d_front h l n : option heap :=
  match root h l with
  | Some r => match d_link h n r with Some h1 => Some (setR h1 l (Some n)) | None => None end
  | None => Some (setR (setB (setN h n (Some n)) n (Some n)) l (Some n))
  end.
(** insertBef, 99-128 *)
Definition d_insertBef h l n (bef : option nat) : option heap :=
  if listed h n then None else
  if onb bef (root h l) then d_front h l n
  else match (match bef with None => root h l | Some b => Some b end) with Some b => d_link h n b | None => None end.
(** insertAft, 132-159 *)
Definition d_insertAft h l (aft : option nat) n : option heap :=
  if listed h n then None else
  match aft with
  | None => d_front h l n
  | Some a =>
      let h1 := setB (setN h n (nxt h a)) n (Some a) in
      match setB' h1 (nxt h1 n) (Some n) with Some h2 => Some (setN h2 a (Some n)) | None => None end
  end.
(** remove, 162-174 *)
Definition d_remove h l n : option heap :=
  if negb (listed h n) then None else
  let h1 := if onb (Some n) (root h l) then (if onb (nxt h n) (Some n) then setR h l None else setR h l (nxt h n)) else h in
  match setB' h1 (nxt h1 n) (bck h1 n) with
  | None => None
  | Some h2 => match setN' h2 (bck h2 n) (nxt h2 n) with
               | None => None
               | Some h3 => Some (setN (setB h3 n None) n None)
               end
  end.
(** dropHead, dropTail 192-206 *)
Definition d_drop h l (n : option nat) : option (heap * option nat) :=
  match n with None => Some (h, None) | Some x => match d_remove h l x with Some h' => Some (h', Some x) | None => None end end.
(** transfer, 209-222: adding the circular list with the given root *)
Definition d_append h s (fr : option nat) : option heap :=
  match fr with
  | None => Some h
  | Some y =>
      match root h s with
      | None => Some (setR h s fr)
      | Some x =>
          let toEnd := bck h x in let fromEnd := bck h y in
          let h1 := setB h x fromEnd in
          match setN' h1 fromEnd (Some x) with
          | None => None
          | Some h2 => let h3 := setB h2 y toEnd in setN' h3 toEnd (Some y)
          end
      end
  end.
Definition d_transfer h s f : option heap :=
  if empty h f then Some h else
  match d_append h s (root h f) with Some h1 => Some (setR h1 f None) | None => None end.
(** split, 226-243 *)
Definition d_split h s f n : option heap :=
  if negb (listed h n) then None else
  let tr := root h f in
  let h1 := setR h f (nxt h n) in
  match (if onb tr (root h1 f) then Some (setR h1 f None)
         else match root h1 f, tr with
              | Some y, Some x =>
                  let h2 := setB h1 y (bck h1 x) in
                  match setN' h2 (bck h2 x) (Some y) with
                  | Some h3 => Some (setB (setN h3 n (Some x)) x (Some n))
                  | None => None
                  end
              | _, _ => None
              end) with
  | Some h4 => d_append h4 s tr
  | None => None
  end.
(** SeqIter, SeqIterRev, operator | repeated (281-288, 324-331) *)
Fixpoint d_iter h l (curr : option nat) (k : nat) : option (list nat) :=
  match curr, k with
  | None, _ => Some []
  | Some _, 0 => None
  | Some t, S k' => match d_succ h l t with
                    | None => None
                    | Some n => match d_iter h l (if onb n (root h l) then None else n) k' with Some r => Some (t :: r) | None => None end
                    end
  end.
Fixpoint d_iterRev h l (curr : option nat) (k : nat) : option (list nat) :=
  match curr, k with
  | None, _ => Some []
  | Some _, 0 => None
  | Some t, S k' => match d_pred h l t with
                    | None => None
                    | Some n => match d_iterRev h l (if onb n (d_tail h l) then None else n) k' with Some r => Some (t :: r) | None => None end
                    end
  end.

Definition rn (o : option heap) (n : nat) : option (heap * res) := match o with Some h => Some (h, RNode (Some n)) | None => None end.
Definition rv (o : option heap) : option (heap * res) := match o with Some h => Some (h, RVoid) | None => None end.
Definition ro (o : option (heap * option nat)) : option (heap * res) := match o with Some (h, x) => Some (h, RNode x) | None => None end.
Definition rl h (o : option (list nat)) : option (heap * res) := match o with Some x => Some (h, RList x) | None => None end.
Definition rs h (o : option (option nat)) : option (heap * res) := match o with Some x => Some (h, RNode x) | None => None end.
Definition exec_stack (k : nat) h (o : op) : option (heap * res) :=
  match o with
  | AddHead l n => rn (s_add h l n) n
  | DropHead l => ro (Some (s_drop h l))
  | Head l => Some (h, RNode (root h l))
  | Empty l => Some (h, RBool (empty h l))
  | Listed n => Some (h, RBool (listed h n))
  | Elems l => rl h (s_iter h (root h l) k)
  | _ => None
  end.
Definition exec_queue (k : nat) h (o : op) : option (heap * res) :=
  match o with
  | AddHead l n => rn (q_addHead h l n) n
  | AddTail l n => rn (q_addTail h l n) n
  | DropHead l => ro (Some (q_dropHead h l))
  | DropTail l => ro (q_dropTail h l k)
  | Remove l n => rn (q_remove h l n k) n
  | Transfer s f => rv (q_transfer h s f)
  | Split s f n => rv (q_split h s f n)
  | Head l => Some (h, RNode (root h l))
  | Tail l => Some (h, RNode (last h l))
  | Empty l => Some (h, RBool (empty h l))
  | Listed n => Some (h, RBool (listed h n))
  | Succ l n => rs h (q_succ h n)
  | Elems l => rl h (s_iter h (root h l) k)
  | _ => None
  end.
Definition exec_seq (k : nat) h (o : op) : option (heap * res) :=
  match o with
  | AddHead l n => rn (d_insertAft h l None n) n
  | AddTail l n => rn (d_insertBef h l n None) n
  | DropHead l => ro (d_drop h l (root h l))
  | DropTail l => ro (d_drop h l (d_tail h l))
  | Remove l n => rn (d_remove h l n) n
  | Transfer s f => rv (d_transfer h s f)
  | Split s f n => rv (d_split h s f n)
  | Head l => Some (h, RNode (root h l))
  | Tail l => Some (h, RNode (d_tail h l))
  | Empty l => Some (h, RBool (empty h l))
  | Listed n => Some (h, RBool (listed h n))
  | Succ l n => rs h (d_succ h l n)
  | Pred l n => rs h (d_pred h l n)
  | InsBef l n b => rn (d_insertBef h l n b) n
  | InsAft l a n => rn (d_insertAft h l a n) n
  | Elems l => rl h (d_iter h l (root h l) k)
  | ElemsRev l => rl h (d_iterRev h l (d_tail h l) k)
  end.
Fixpoint execs (ex : heap -> op -> option (heap * res)) (h : heap) (os : list op) : option (heap * list res) :=
  match os with
  | [] => Some (h, [])
  | o :: r => match ex h o with
              | Some (h1, x) => match execs ex h1 r with Some (h2, xs) => Some (h2, x :: xs) | None => None end
              | None => None
              end
  end.
