(* counter_ptr: /repo/libcfa/src/memory.cfa, lines 21-116 (memory.hfa, lines
   17-66), with delete, /repo/libcfa/src/stdlib.hfa, lines 316-322.

   A state is the set of constructed counter_ptrs and the set of allocated
   counter_data.  An object may contain counter_ptrs itself (its fields); its
   destructor destroys them.  Simplifications: an address is not used again
   after free (a new object gets a new number); a fresh object's fields are
   null; the order in which the fields of an object are destroyed is ascending;
   a counter_ptr is touched by one thread at a time. *)

From Coq Require Import List Bool Arith ZArith.
Import ListNotations.

Inductive place :=
  | Var (x : nat)                     (* a variable of the program *)
  | Field (o f : nat)                 (* field f of object o *)
  | Tmp.                              (* the temporary of a call *)

Definition place_dec : forall p q : place, {p = q} + {p <> q}.
Proof. decide equality; apply Nat.eq_dec. Defined.

Record state := mkS {
  ptrs : list (place * option nat);   (* constructed pointers; None: null *)
  objs : list (nat * (Z * nat));      (* allocated: counter, number of fields *)
  next : nat
}.

Inductive outcome := Ok (s : state) | Undef | Stuck | NoFuel.

Definition lookup (p : place) (l : list (place * option nat)) : option (option nat) :=
  match find (fun e => if place_dec (fst e) p then true else false) l with
  | Some e => Some (snd e)
  | None => None
  end.
Definition rem (p : place) (l : list (place * option nat)) :=
  filter (fun e => if place_dec (fst e) p then false else true) l.

Definition olookup (o : nat) (l : list (nat * (Z * nat))) : option (Z * nat) :=
  match find (fun e => Nat.eqb (fst e) o) l with Some e => Some (snd e) | None => None end.
Definition orem (o : nat) (l : list (nat * (Z * nat))) := filter (fun e => negb (Nat.eqb (fst e) o)) l.
Definition oset (o : nat) (v : Z * nat) (l : list (nat * (Z * nat))) :=
  map (fun e => if Nat.eqb (fst e) o then (o, v) else e) l.

(* unsigned int *)
Definition wrap (z : Z) : Z := (z mod 4294967296)%Z.

Inductive work := WDrop (p : place) | WFree (o : nat).

Definition fields (o k : nat) : list work := map (fun f => WDrop (Field o f)) (seq 0 k).

(* memory.cfa:45-50 internal_decrement, 28-32 ^?{}(counter_data), stdlib.hfa:
   316-322 delete; the recursion of destructors is a list of work to do.
   WDrop p: internal_decrement on p, after which p is not used again.  A pointer
   whose WDrop has begun counts as gone: touching it again is Undef (the code
   decrements a second time and writes to freed memory). *)
Fixpoint drain (fuel : nat) (s : state) (wl : list work) : outcome :=
  match wl with
  | [] => Ok s
  | w :: wl' =>
      match fuel with
      | 0 => NoFuel
      | S n =>
          match w with
          | WDrop p =>
              match lookup p (ptrs s) with
              | None => Undef
              | Some None => drain n (mkS (rem p (ptrs s)) (objs s) (next s)) wl'
              | Some (Some o) =>
                  match olookup o (objs s) with
                  | None => Undef                     (* the object was freed *)
                  | Some (c, k) =>
                      let c1 := wrap (c - 1) in
                      let s1 := mkS (rem p (ptrs s)) (oset o (c1, k) (objs s)) (next s) in
                      if Z.eqb c1 0 then drain n s1 (fields o k ++ WFree o :: wl') else drain n s1 wl'
                  end
              end
          | WFree o =>
              match olookup o (objs s) with
              | None => Undef                         (* double free *)
              | Some _ => drain n (mkS (ptrs s) (orem o (objs s)) (next s)) wl'
              end
          end
      end
  end.

(* Each unit of work takes a pointer or an object away. *)
Definition fuel_of (s : state) : nat := length (ptrs s) + length (objs s).

Definition drop (s : state) (p : place) : outcome := drain (fuel_of s) s [WDrop p].

(* memory.cfa:52-58 internal_copy: p gets the value v. *)
Definition put (s : state) (p : place) (v : option nat) : outcome :=
  match v with
  | None => Ok (mkS ((p, None) :: ptrs s) (objs s) (next s))
  | Some o =>
      match olookup o (objs s) with
      | None => Undef
      | Some (c, k) => Ok (mkS ((p, Some o) :: ptrs s) (oset o (wrap (c + 1), k) (objs s)) (next s))
      end
  end.

Inductive op :=
  | ONull (x : nat)                   (* counter_ptr(T) x, or x = 0p *)
  | ONew (x k : nat)                  (* counter_ptr(T) x = args, T with k fields *)
  | OCopy (x : nat) (q : place)       (* counter_ptr(T) x = q *)
  | ODrop (x : nat)                   (* the end of x *)
  | OAssign (p q : place)             (* p = q *)
  | OAssignNull (p : place).          (* p = 0 *)

Definition bind (r : outcome) (f : state -> outcome) : outcome :=
  match r with Ok s => f s | _ => r end.

(* memory.cfa:84-90.  The argument is passed by value: the caller copies it into
   a temporary first and destroys that after the call
   (/repo/src/InitTweak/FixInit.cpp:397-433, 492-540). *)
Definition assign (s : state) (p q : place) : outcome :=
  match lookup q (ptrs s) with
  | None => Undef
  | Some v =>
      bind (put s Tmp v) (fun s1 =>
        match lookup p (ptrs s1) with
        | None => Undef
        | Some w =>
            bind (if (match w, v with
                      | Some a, Some b => Nat.eqb a b
                      | None, None => true
                      | _, _ => false
                      end)
                  then Ok s1
                  else bind (drop s1 p) (fun s2 => put s2 p v))
                 (fun s3 => drop s3 Tmp)
        end)
  end.

Definition step (s : state) (o : op) : outcome :=
  match o with
  | ONull x =>                                        (* memory.cfa:34-43 *)
      match lookup (Var x) (ptrs s) with Some _ => Stuck | None => put s (Var x) None end
  | ONew x k =>                                       (* memory.cfa:67-72 *)
      match lookup (Var x) (ptrs s) with
      | Some _ => Stuck
      | None => Ok (mkS ((Var x, Some (next s)) :: map (fun f => (Field (next s) f, None)) (seq 0 k) ++ ptrs s)
                        ((next s, (1%Z, k)) :: objs s) (S (next s)))
      end
  | OCopy x q =>                                      (* memory.cfa:60-65 *)
      match lookup (Var x) (ptrs s) with
      | Some _ => Stuck
      | None => match lookup q (ptrs s) with None => Undef | Some v => put s (Var x) v end
      end
  | ODrop x =>                                        (* memory.cfa:74-77 *)
      match lookup (Var x) (ptrs s) with None => Stuck | Some _ => drop s (Var x) end
  | OAssign p q => assign s p q
  | OAssignNull p =>                                  (* memory.cfa:92-96 *)
      match lookup p (ptrs s) with
      | None => Undef
      | Some _ => bind (drop s p) (fun s1 => put s1 p None)
      end
  end.

Definition start : state := mkS [] [] 0.

(* memory.cfa:79-82: what *p refers to; None: undefined, Some None: null. *)
Definition deref (s : state) (p : place) : option (option nat) :=
  match lookup p (ptrs s) with
  | Some (Some o) => match olookup o (objs s) with Some _ => Some (Some o) | None => None end
  | Some None => Some None
  | None => None
  end.

(* memory.cfa:98-116 *)
Definition oeqb (a b : option nat) : bool :=
  match a, b with Some x, Some y => Nat.eqb x y | None, None => true | _, _ => false end.
Definition equal (s : state) (p q : place) : option bool :=
  match lookup p (ptrs s), lookup q (ptrs s) with
  | Some a, Some b => Some (oeqb a b)
  | _, _ => None
  end.

Fixpoint exec (s : state) (l : list op) : outcome :=
  match l with [] => Ok s | o :: l' => bind (step s o) (fun s1 => exec s1 l') end.
