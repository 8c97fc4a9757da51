(** Reference counts of syntax-tree nodes: src/AST/Node.hpp:30-113, 165-285 and src/AST/Node.cpp:66-106.
    A location is a ptr or readonly object: a variable of the compiler, or a field of a node. The shape of a run fixes which locations and nodes exist in it, the kind of each location
    (true = ptr, strong; false = readonly, weak), and the fields of each node. An address is used for one node only. Raw node pointers held by code are not locations.
    A variable that is constructed is a location holding null that is assigned to. The counts are not bounded by 2^64. was_ever_strong is not used by the code. *)
From Coq Require Import List Bool Arith.
Import ListNotations.
Definition loc := nat.
Definition node := nat.
Record shape := Sh { locs : list loc; nodes : list node; kind : loc -> bool; owner : loc -> option node; fields : node -> list loc }.
(** made, freed and loose are for the statements: the node was created; how often it was deleted; it has no reference because it is new or was released *)
Record st := St { cont : loc -> option node; cnt : bool -> node -> nat; alive : node -> bool; made : node -> bool; freed : node -> nat; loose : node -> bool }.
Definition start : st := St (fun _ => None) (fun _ _ => 0) (fun _ => false) (fun _ => false) (fun _ => 0) (fun _ => false).
(** Ub = a deleted node is used; Fuel = not finished with the fuel; Abort = the assertion of mutate *)
Inductive res := Ub | Fuel | Abort | Ok (s : st).
Definition upd {A : Type} (f : nat -> A) (i : nat) (x : A) : nat -> A := fun j => if Nat.eqb j i then x else f j.
Definition upk (f : bool -> node -> nat) (k : bool) (n : node) (x : nat) : bool -> node -> nat := fun j m => if Bool.eqb j k && Nat.eqb m n then x else f j m.
Definition setc (s : st) (l : loc) (x : option node) : st := St (upd (cont s) l x) (cnt s) (alive s) (made s) (freed s) (loose s).
Definition setn (s : st) (k : bool) (n : node) (x : nat) : st := St (cont s) (upk (cnt s) k n x) (alive s) (made s) (freed s) (loose s).
Definition setl (s : st) (n : node) (b : bool) : st := St (cont s) (cnt s) (alive s) (made s) (freed s) (upd (loose s) n b).
Definition die (s : st) (n : node) : st := St (cont s) (cnt s) (upd (alive s) n false) (made s) (upd (freed s) n (S (freed s n))) (loose s).
Definition make (s : st) (n : node) : st := St (cont s) (cnt s) (upd (alive s) n true) (upd (made s) n true) (freed s) (upd (loose s) n true).
(** increment, Node.hpp:68-73 *)
Definition inc (k : bool) (n : node) (s : st) : res := if alive s n then Ok (setl (setn s k n (S (cnt s k n))) n false) else Ub.
Definition zero (s : st) (n : node) : bool := Nat.eqb (cnt s true n) 0 && Nat.eqb (cnt s false n) 0.
(** decrement, Node.hpp:75-84; delete runs the destructors of the fields, 169: the field is cleared, then the node it held is decremented *)
Fixpoint dec (sh : shape) (fuel : nat) (k : bool) (n : node) (s : st) : res :=
  match fuel with
  | 0 => Fuel
  | S f =>
      if negb (alive s n) then Ub
      else let s1 := setn s k n (cnt s k n - 1) in
        if zero s1 n
        then fold_left (fun r l =>
               match r with
               | Ok s2 => match cont s2 l with None => Ok s2 | Some m => dec sh f (kind sh l) m (setc s2 l None) end
               | _ => r
               end) (fields sh n) (Ok (die s1 n))
        else Ok s1
  end.
(** decrement without deletion, as in release, 245-252 *)
Definition dec_keep (k : bool) (n : node) (s : st) : res :=
  if alive s n then let s1 := setn s k n (cnt s k n - 1) in Ok (if zero s1 n then setl s1 n true else s1) else Ub.
Definition bind (r : res) (f : st -> res) : res := match r with Ok s => f s | _ => r end.
Definition live (sh : shape) (s : st) (l : loc) : bool := match owner sh l with None => true | Some o => alive s o end.
(** access to the storage of a location *)
Definition at_ (sh : shape) (l : loc) (s : st) (f : st -> res) : res := if live sh s l then f s else Ub.
Definition fuel (sh : shape) : nat := S (length (nodes sh)).
Definition dec_opt (sh : shape) (k : bool) (x : option node) (s : st) : res := match x with None => Ok s | Some n => dec sh (fuel sh) k n s end.
Definition inc_opt (k : bool) (x : option node) (s : st) : res := match x with None => Ok s | Some n => inc k n s end.
(** assign, 272-276 *)
Definition assign (sh : shape) (l : loc) (x : option node) (s : st) : res :=
  at_ sh l s (fun s => bind (inc_opt (kind sh l) x s) (fun s1 => bind (dec_opt sh (kind sh l) (cont s1 l) s1) (fun s2 => at_ sh l s2 (fun s3 => Ok (setc s3 l x))))).
(** operator=( nullptr ), 199-203 *)
Definition assign_null (sh : shape) (l : loc) (s : st) : res :=
  at_ sh l s (fun s => bind (dec_opt sh (kind sh l) (cont s l) s) (fun s2 => at_ sh l s2 (fun s3 => Ok (setc s3 l None)))).
(** the destructor, 169 *)
Definition destroy (sh : shape) (l : loc) (s : st) : res := at_ sh l s (fun s => dec_opt sh (kind sh l) (cont s l) (setc s l None)).
(** move assignment from a pointer of the same kind, 210-216; o is the source *)
Definition same_opt (x y : option node) : bool := match x, y with None, None => true | Some a, Some b => Nat.eqb a b | _, _ => false end.
Definition move (sh : shape) (l o : loc) (s : st) : res :=
  at_ sh l s (fun s => at_ sh o s (fun s =>
    if same_opt (cont s l) (cont s o) then Ok s
    else bind (dec_opt sh (kind sh l) (cont s l) s) (fun s2 => at_ sh o s2 (fun s3 => at_ sh l s3 (fun s4 => Ok (setc (setc s4 l (cont s3 o)) o None)))))).
(** release, 245-252 *)
Definition release (sh : shape) (l : loc) (s : st) : res :=
  at_ sh l s (fun s => match cont s l with None => Ok s | Some n => bind (dec_keep (kind sh l) n s) (fun s1 => Ok (setc s1 l None)) end).
(** swap, Node.cpp:84-89 *)
Definition swap (sh : shape) (l o : loc) (s : st) : res :=
  at_ sh l s (fun s => at_ sh o s (fun s => Ok (setc (setc s l (cont s o)) o (cont s l)))).
(** clone into the new node n': the node's copy constructor copies the fields, 171-173 *)
Definition copy (sh : shape) (ps : list (loc * loc)) (s : st) : res :=
  fold_left (fun r p => bind r (fun s1 => bind (inc_opt (kind sh (snd p)) (cont s1 (fst p)) s1) (fun s2 => Ok (setc s2 (snd p) (cont s1 (fst p)))))) ps (Ok s).
Definition clone (sh : shape) (n n' : node) (s : st) : res := copy sh (combine (fields sh n) (fields sh n')) (make s n').
(** mutate, 93-105, and get_and_mutate, Node.cpp:91-98; n' is the address of the copy if one is made *)
Definition get_and_mutate (sh : shape) (l : loc) (n' : node) (s : st) : res :=
  at_ sh l s (fun s =>
    match cont s l with
    | None => Ub
    | Some n =>
        if cnt s true n <=? 1 then assign sh l (Some n) s
        else if negb (Nat.eqb (cnt s false n) 0) then Abort
        else bind (clone sh n n' s) (fun s1 => assign sh l (Some n') s1)
    end).
Inductive op :=
  | New (n : node)
  | Set_ (l : loc) (x : option node)      (* assignment from a raw pointer, or from another ptr or readonly: 192-197, 205-208, 218-228 *)
  | Null (l : loc)
  | Destroy (l : loc)
  | Move (l o : loc)
  | Release (l : loc)
  | Swap (l o : loc)
  | Mutate (l : loc) (n' : node).
Definition step (sh : shape) (o : op) (s : st) : res :=
  match o with
  | New n => Ok (make s n)
  | Set_ l x => assign sh l x s
  | Null l => assign_null sh l s
  | Destroy l => destroy sh l s
  | Move l p => move sh l p s
  | Release l => release sh l s
  | Swap l p => swap sh l p s
  | Mutate l n' => get_and_mutate sh l n' s
  end.
