(* The growable array with iterators of
   /repo/libcfa/src/collections/vector2.hfa, lines 44-360.

   A pointer into the buffer is its offset from buffer_first_$; None is 0p.  A
   buffer cell is None until it is written.  live_iters_$ is the list of permits
   (list.hfa is in DList/); exits and permits have names.  The default capacity
   arithmetic does not overflow.  The elements' constructors and destructors are
   those of a plain value. *)

From Coq Require Import List Arith ZArith Bool.
Import ListNotations.

Section T.
Context {T : Type}.

(* vector2.hfa:46-53 *)
Record vec := V {
  buf : list (option T);                         (* buffer_first_$, buffer_end_$ *)
  first : option nat;                            (* elems_first_$ *)
  end_ : nat;                                    (* elems_end_$ *)
  exits : list (nat * option nat);               (* item_$ of the exits; their number is exit_refcount_$ *)
  permits : list (nat * nat)                     (* item_$ of the permits *)
}.

(* Undefined: memory outside the buffer, or a cell never written, is used.
   Fails: an assertion.  Hangs: a loop does not end. *)
Inductive res (A : Type) := Ok (a : A) | Undefined | Fails | Hangs.
Arguments Ok {A}. Arguments Undefined {A}. Arguments Fails {A}. Arguments Hangs {A}.

Definition bind {A B} (r : res A) (f : A -> res B) : res B :=
  match r with Ok a => f a | Undefined => Undefined | Fails => Fails | Hangs => Hangs end.

Fixpoint put {A} (l : list A) (n : nat) (x : A) : list A :=
  match l, n with
  | [], _ => []
  | _ :: r, O => x :: r
  | a :: r, S m => a :: put r m x
  end.

(* vector2.hfa:120-127 *)
Definition new (capacity : nat) : vec := V (repeat None capacity) None 0 [] [].

(* vector2.hfa:311-313 *)
Definition capacity (v : vec) : nat := length (buf v).

(* vector2.hfa:315-319 *)
Definition len (v : vec) : nat :=
  match first v with
  | None => 0
  | Some f => if f <? end_ v then end_ v - f else capacity v - f + end_ v
  end.

(* vector2.hfa:150.  The comparison of ptrdiff_t and size_t is unsigned. *)
Fixpoint reduce (n : nat) (i l : Z) : option Z :=
  if (l <? i)%Z then match n with O => None | S n => reduce n (i - l)%Z l end else Some i.

(* vector2.hfa:148-157.  A negative idx is, as an unsigned number, greater than
   len: the loop subtracts until idx overflows, or for ever. *)
Definition find (v : vec) (idx : Z) : res nat :=
  if (idx <? 0)%Z then if len v =? 0 then Hangs else Undefined
  else
    match reduce (Z.to_nat idx) idx (Z.of_nat (len v)) with
    | None => Hangs
    | Some i =>
        match first v with
        | None => Undefined
        | Some f =>
            let o := f + Z.to_nat i in
            if o <? capacity v then Ok o
            else if o - capacity v <? end_ v then Ok (o - capacity v) else Fails
        end
    end.

Definition load (b : list (option T)) (o : nat) : res T :=
  match nth_error b o with Some (Some x) => Ok x | _ => Undefined end.
Definition store (b : list (option T)) (o : nat) (x : option T) : res (list (option T)) :=
  if o <? length b then Ok (put b o x) else Undefined.

(* copying a cell, written or not *)
Definition copy (b : list (option T)) (dst src : nat) : res (list (option T)) :=
  match nth_error b src with Some x => store b dst x | None => Undefined end.

(* vector2.hfa:248-266 *)
Fixpoint gather (v : vec) (n : nat) : res (list (option T)) :=
  match n with
  | O => Ok []
  | S n =>
      bind (gather v n) (fun l =>
      bind (find v (Z.of_nat n)) (fun o =>
      match nth_error (buf v) o with Some x => Ok (l ++ [x]) | None => Undefined end))
  end.

Definition grow (v : vec) : res vec :=
  let n := 2 * capacity v in
  bind (gather v (len v)) (fun l =>
  if len v <? n then Ok (V (l ++ repeat None (n - len v)) (Some 0) (len v) (exits v) (permits v)) else Fails).

(* vector2.hfa:268-272 *)
Definition in_range (q from to : nat) : bool :=
  if from =? to then false
  else if from <? to then (from <=? q) && (q <? to)
  else (q <? to) || (from <=? q).

(* vector2.hfa:277-281, 322-326 *)
Definition make_room (v : vec) : res vec :=
  match exits v with
  | _ :: _ => Fails
  | [] => if capacity v <=? len v then if len v =? capacity v then grow v else Fails else Ok v
  end.

Definition advance (v : vec) (o : nat) : nat := if capacity v <=? o + 1 then 0 else o + 1.

(* vector2.hfa:276-289 *)
Definition push_last (v : vec) (x : T) : res vec :=
  bind (make_room v) (fun v =>
  bind (store (buf v) (end_ v) (Some x)) (fun b =>
  Ok (V b (match first v with None => Some (end_ v) | Some f => Some f end) (advance v (end_ v)) (exits v) (permits v)))).

(* vector2.hfa:334-336, 338-340, 342-344: for (tgt = from; tgt > from - n; tgt--) *tgt = *(tgt-1) *)
Fixpoint bubble (b : list (option T)) (from n : nat) : res (list (option T)) :=
  match n with
  | O => Ok b
  | S n => bind (copy b from (from - 1)) (fun b => bubble b (from - 1) n)
  end.

(* vector2.hfa:321-358 *)
Definition insert_before (v : vec) (idx : Z) (x : T) : res vec :=
  bind (make_room v) (fun v =>
  bind (find v idx) (fun t =>
  bind (if end_ v <? t
        then bind (bubble (buf v) (end_ v) (end_ v)) (fun b =>
             bind (copy b 0 (capacity v - 1)) (fun b =>
             bubble b (capacity v - 1) (capacity v - 1 - t)))
        else bubble (buf v) (end_ v) (end_ v - t)) (fun b =>
  let e := if end_ v + 1 =? capacity v then 0 else end_ v + 1 in
  bind (store b t (Some x)) (fun b =>
  Ok (V b (first v) e (exits v)
        (map (fun p => (fst p, if in_range (snd p) t e then advance v (snd p) else snd p)) (permits v))))))).

Definition assoc {A} (l : list (nat * A)) (n : nat) : option A :=
  match List.find (fun p => fst p =? n) l with Some p => Some (snd p) | None => None end.
Definition drop {A} (l : list (nat * A)) (n : nat) : list (nat * A) := filter (fun p => negb (fst p =? n)) l.

(* vector2.hfa:200-222 *)
Definition move_next (v : vec) (item : option nat) : res (option nat * bool) :=
  match first v with
  | None => match item with None => Ok (None, false) | Some _ => Fails end
  | Some f =>
      if f <? end_ v
      then let o := match item with None => f | Some i => if capacity v <? i + 1 then 0 else i + 1 end in
           if end_ v <=? o then Ok (None, false) else Ok (Some o, true)
      else Fails
  end.

Inductive op :=
| Push (x : T)
| Insert (idx : Z) (x : T)
| Get (idx : Z)                                  (* v[idx]`val *)
| Set_ (idx : Z) (x : T)                         (* v[idx] = x *)
| Len
| Cap
| Permit (n : nat) (idx : Z)                     (* vector_permit(T) n = v[idx] *)
| PermitVal (n : nat)
| PermitEnd (n : nat)
| Exit (n : nat) (idx : Z)                       (* vector_exit(T) n = v[idx] *)
| Origin (n : nat)                               (* vector_exit(T) n = v`origin *)
| ExitVal (n : nat)
| ExitSet (n : nat) (x : T)
| MoveNext (n : nat)
| ExitEnd (n : nat).

Inductive out := Done | Val (x : T) | Num (n : nat) | Bool (b : bool).

Definition with_buf (v : vec) (b : list (option T)) : vec := V b (first v) (end_ v) (exits v) (permits v).
Definition with_exits (v : vec) (l : list (nat * option nat)) : vec := V (buf v) (first v) (end_ v) l (permits v).
Definition with_permits (v : vec) (l : list (nat * nat)) : vec := V (buf v) (first v) (end_ v) (exits v) l.

Definition step (v : vec) (o : op) : res (vec * out) :=
  match o with
  | Push x => bind (push_last v x) (fun v => Ok (v, Done))
  | Insert i x => bind (insert_before v i x) (fun v => Ok (v, Done))
  (* 159-166 *)
  | Get i => bind (find v i) (fun o => bind (load (buf v) o) (fun x => Ok (v, Val x)))
  | Set_ i x => bind (find v i) (fun o => bind (store (buf v) o (Some x)) (fun b => Ok (with_buf v b, Done)))
  | Len => Ok (v, Num (len v))
  | Cap => Ok (v, Num (capacity v))
  (* 230-245 *)
  | Permit n i => bind (find v i) (fun o => Ok (with_permits v ((n, o) :: permits v), Done))
  | PermitVal n => match assoc (permits v) n with None => Undefined | Some o => bind (load (buf v) o) (fun x => Ok (v, Val x)) end
  | PermitEnd n => Ok (with_permits v (drop (permits v) n), Done)
  (* 170-198, 297-309 *)
  | Exit n i => bind (find v i) (fun o => Ok (with_exits v ((n, Some o) :: exits v), Done))
  | Origin n => Ok (with_exits v ((n, None) :: exits v), Done)
  | ExitVal n => match assoc (exits v) n with Some (Some o) => bind (load (buf v) o) (fun x => Ok (v, Val x)) | _ => Undefined end
  | ExitSet n x => match assoc (exits v) n with Some (Some o) => bind (store (buf v) o (Some x)) (fun b => Ok (with_buf v b, Done)) | _ => Undefined end
  | MoveNext n =>
      match assoc (exits v) n with
      | None => Undefined
      | Some i => bind (move_next v i) (fun r => Ok (with_exits v ((n, fst r) :: drop (exits v) n), Bool (snd r)))
      end
  | ExitEnd n => Ok (with_exits v (drop (exits v) n), Done)
  end.

Fixpoint steps (v : vec) (l : list op) : res (vec * list out) :=
  match l with
  | [] => Ok (v, [])
  | o :: l => bind (step v o) (fun r => bind (steps (fst r) l) (fun q => Ok (fst q, snd r :: snd q)))
  end.

End T.
Arguments Ok {A}. Arguments Undefined {A}. Arguments Fails {A}. Arguments Hangs {A}.
