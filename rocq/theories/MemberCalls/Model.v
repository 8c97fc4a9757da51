(** The calls for members in user-defined constructors and destructors of structures: GenStructMemberCalls, src/InitTweak/FixInit.cpp:1039-1247.
    Bodies: what matters of them. SInit m us: an explicit call of the same kind of function (constructor in a constructor, destructor in a destructor) for the member m of this, whose other arguments use the members us; SDeleg: one for this itself; SUse m: any other use of the member m of this.
    Not modelled: whether a call for a member can be resolved (1165-1167), the arguments of copy constructors (1122-1129), members of members, aliases of this, goto, switch and exceptions. *)
From Coq Require Import List Bool Arith.
Import ListNotations.
Inductive stmt := SInit (m : nat) (us : list nat) | SDeleg | SUse (m : nat) | SRet | SIf (a b : list stmt) | SLoop (b : list stmt).
(** unhandled and usedUninit, sets as lists *)
Record st := St { unhandled : list nat; used : list nat }.
Definition mem (m : nat) (l : list nat) : bool := existsb (Nat.eqb m) l.
Definition erase (m : nat) (l : list nat) : list nat := filter (fun x => negb (x =? m)) l.
(** previsit of MemberExpr, 1223-1236: nothing in destructors *)
Definition visit_use (ctor : bool) (m : nat) (s : st) : st := if ctor && mem m (unhandled s) then St (unhandled s) (m :: used s) else s.
(** previsit of ApplicationExpr, 1199-1221, then its arguments *)
Fixpoint visit (ctor : bool) (x : stmt) (s : st) : st :=
  match x with
  | SInit m us => fold_left (fun s u => visit_use ctor u s) us (St (erase m (unhandled s)) (used s))
  | SDeleg => St [] (used s)
  | SUse m => visit_use ctor m s
  | SRet => s
  | SIf a b => fold_left (fun s y => visit ctor y s) b (fold_left (fun s y => visit ctor y s) a s)
  | SLoop b => fold_left (fun s y => visit ctor y s) b s
  end.
Definition visit_all (ctor : bool) (l : list stmt) (s : st) : st := fold_left (fun s y => visit ctor y s) l s.
(** previsit of FunctionDecl, 1045-1081: all members are unhandled *)
Definition visited (ctor : bool) (members : list nat) (body : list stmt) : st := visit_all ctor body (St members []).
(** postvisit, 1083-1174: an error for members used and handled later, 1084-1099; the members in reverse, each call at the front (1113-1139); cons: tryConstruct of the member *)
Definition rejected (members : list nat) (body : list stmt) : bool := let s := visited true members body in existsb (fun m => negb (mem m (unhandled s))) (used s).
Definition implicit {A} (f : nat -> A) (cons : nat -> bool) (members un : list nat) : list A :=
  fold_left (fun l m => if negb (cons m) then l else if negb (mem m un) then l else f m :: l) (rev members) [].
Definition constructor (cons : nat -> bool) (members : list nat) (body : list stmt) : option (list stmt) :=
  if rejected members body then None else Some (implicit (fun m => SInit m []) cons members (unhandled (visited true members body)) ++ body).
(** in destructors objects at the front of the body whose cleanup calls the destructor of a member, 1140-1164; they are destroyed when the body is left, the last declared first. intr: the destructor of the member is intrinsic (1143) *)
Definition destructor (cons intr : nat -> bool) (members : list nat) (body : list stmt) : list nat :=
  implicit (fun m => m) (fun m => cons m && negb (intr m)) members (unhandled (visited false members body)).
