From Coq Require Import List Bool Arith.
From Verif.AstRef Require Import Model.
Import ListNotations.
(** the shape describes a program: every field of a node is a location owned by it *)
Record wf (sh : shape) : Prop := mkwf {
  W_locs : NoDup (locs sh);
  W_nodes : NoDup (nodes sh);
  W_fields : forall n l, In l (fields sh n) <-> In l (locs sh) /\ owner sh l = Some n;
  W_once : forall n, NoDup (fields sh n) }.
(** l refers to n *)
Definition refers (s : st) (l : loc) (n : node) : Prop := cont s l = Some n.
(** the number of locations of kind k that refer to n *)
Definition is_some (x : option node) (n : node) : bool := match x with Some m => Nat.eqb m n | None => false end.
Definition count (sh : shape) (s : st) (k : bool) (n : node) : nat := length (filter (fun l => Bool.eqb (kind sh l) k && is_some (cont s l) n) (locs sh)).
(** the location keeps its storage when all that is otherwise unreferenced goes: it is a variable, or a field of a node held by a set of nodes each of which is without references (new or
    released, in the hands of the code) or referred to by a variable or a field of a node in the set, not counting the locations in ex *)
Definition held (sh : shape) (s : st) (ex : list loc) (R : node -> Prop) : Prop :=
  forall m, R m -> alive s m = true /\ (loose s m = true \/ exists l, In l (locs sh) /\ ~ In l ex /\ refers s l m /\ (owner sh l = None \/ exists o, owner sh l = Some o /\ R o)).
Definition safe (sh : shape) (s : st) (ex : list loc) (l : loc) : Prop :=
  In l (locs sh) /\ (owner sh l = None \/ exists R o, owner sh l = Some o /\ R o /\ held sh s ex R).
Definition safe2 (sh : shape) (s : st) (ex : list loc) (l l' : loc) : Prop :=
  In l (locs sh) /\ In l' (locs sh) /\ exists R, held sh s ex R /\ (owner sh l = None \/ exists o, owner sh l = Some o /\ R o) /\ (owner sh l' = None \/ exists o, owner sh l' = Some o /\ R o).
(** what a program may do: addresses of new nodes are new, raw pointers point to nodes, and the location assigned to does not go away by the assignment *)
Definition can (sh : shape) (s : st) (o : op) : Prop :=
  match o with
  | New n => In n (nodes sh) /\ made s n = false
  | Set_ l x => (forall n, x = Some n -> alive s n = true) /\ safe sh s [l] l
  | Null l => safe sh s [l] l
  | Destroy l => safe sh s [l] l
  | Move l p => l <> p /\ kind sh l = kind sh p /\ safe2 sh s [l] l p
  | Release l => In l (locs sh) /\ live sh s l = true
  | Swap l p => l <> p /\ kind sh l = kind sh p /\ In l (locs sh) /\ In p (locs sh) /\ live sh s l = true /\ live sh s p = true
  | Mutate l n' => safe sh s [l] l /\ In n' (nodes sh) /\ made s n' = false /\ exists n, refers s l n /\ map (kind sh) (fields sh n) = map (kind sh) (fields sh n')
  end.
Inductive reach (sh : shape) : st -> Prop :=
  | R_start : reach sh start
  | R_step s o s' : reach sh s -> can sh s o -> step sh o s = Ok s' -> reach sh s'.
