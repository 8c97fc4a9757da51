(* A sequence with iterators: an iterator is at a position, and stays with its
   element when the sequence grows. *)

From Coq Require Import List Arith ZArith Bool.
From Verif.Vector2 Require Import Model.
Import ListNotations.

Section T.
Context {T : Type}.

Record seqn := Seq { xs : list T; cap : nat; exs : list (nat * option nat); pms : list (nat * nat) }.

(* Twice the room when it is full. *)
Definition room (s : seqn) : nat := if length (xs s) =? cap s then 2 * cap s else cap s.

Definition set_nth (i : nat) (x : T) (l : list T) : list T := firstn i l ++ x :: skipn (S i) l.

Definition ok_index (s : seqn) (i : Z) : bool := (0 <=? i)%Z && (i <? Z.of_nat (length (xs s)))%Z.

(* None: outside what is promised. *)
Definition spec (s : seqn) (o : @op T) : option (seqn * @out T) :=
  match o with
  | Push x => match exs s with [] => Some (Seq (xs s ++ [x]) (room s) [] (pms s), Done) | _ => None end
  | Insert i x =>
      let k := Z.to_nat i in
      match exs s, xs s with
      | [], _ :: _ =>
          if (0 <=? i)%Z && (i <=? Z.of_nat (length (xs s)))%Z &&
             (match pms s with [] => true | _ => negb ((k =? 0) && (S (length (xs s)) =? room s)) end)
          then Some (Seq (firstn k (xs s) ++ x :: skipn k (xs s)) (room s) []
                         (map (fun p => (fst p, if k <=? snd p then S (snd p) else snd p)) (pms s)), Done)
          else None
      | _, _ => None
      end
  | Get i => if ok_index s i then match nth_error (xs s) (Z.to_nat i) with Some x => Some (s, Val x) | None => None end else None
  | Set_ i x => if ok_index s i then Some (Seq (set_nth (Z.to_nat i) x (xs s)) (cap s) (exs s) (pms s), Done) else None
  | Len => Some (s, Num (length (xs s)))
  | Cap => Some (s, Num (cap s))
  | Permit n i => if ok_index s i then Some (Seq (xs s) (cap s) (exs s) ((n, Z.to_nat i) :: pms s), Done) else None
  | PermitVal n =>
      match assoc (pms s) n with
      | Some k => match nth_error (xs s) k with Some x => Some (s, Val x) | None => None end
      | None => None
      end
  | PermitEnd n => Some (Seq (xs s) (cap s) (exs s) (drop (pms s) n), Done)
  | Exit n i => if ok_index s i then Some (Seq (xs s) (cap s) ((n, Some (Z.to_nat i)) :: exs s) (pms s), Done) else None
  | Origin n => Some (Seq (xs s) (cap s) ((n, None) :: exs s) (pms s), Done)
  | ExitVal n =>
      match assoc (exs s) n with
      | Some (Some k) => match nth_error (xs s) k with Some x => Some (s, Val x) | None => None end
      | _ => None
      end
  | ExitSet n x =>
      match assoc (exs s) n with
      | Some (Some k) => if k <? length (xs s) then Some (Seq (set_nth k x (xs s)) (cap s) (exs s) (pms s), Done) else None
      | _ => None
      end
  | MoveNext n =>
      match assoc (exs s) n with
      | Some i =>
          if length (xs s) <? cap s
          then let k := match i with None => 0 | Some k => S k end in
               let more := k <? length (xs s) in
               if (match i, xs s with Some _, [] => false | _, _ => true end)
               then Some (Seq (xs s) (cap s) ((n, if more then Some k else None) :: drop (exs s) n) (pms s), Bool more)
               else None
          else None
      | None => None
      end
  | ExitEnd n => Some (Seq (xs s) (cap s) (drop (exs s) n) (pms s), Done)
  end.

Fixpoint specs (s : seqn) (l : list (@op T)) : option (seqn * list (@out T)) :=
  match l with
  | [] => Some (s, [])
  | o :: l => match spec s o with
              | Some (s, r) => match specs s l with Some (s, q) => Some (s, r :: q) | None => None end
              | None => None
              end
  end.

End T.
