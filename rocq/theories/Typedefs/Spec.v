(** Lexical scoping: a name has the kind of its latest declaration in an enclosing scope; distribution blocks are not scopes, blocks are. The environment and the kinds of the uses. *)
From Coq Require Import List Bool Arith.
From Verif.Typedefs Require Import Model.
Import ListNotations.
Definition kind_in (e : env) (n : nat) : nat := match look n e with Some k => k | None => identifier end.
Definition known (e : env) (n : nat) : bool := match look n e with Some _ => true | None => false end.
Definition agg_kind (f : bool) : nat := if f then typegenname else typedefname.
Fixpoint lex_loc (i : loc) (e : env) : env * list nat :=
  match i with
  | Luse n => (e, [kind_in e n])
  | Ltypedef n => ((n, typedefname) :: e, [])
  | Lagg n f => (if known e n then e else (n, agg_kind f) :: e, [])
  | Lblock l => (e, snd ((fix go (l : list loc) (e : env) : env * list nat := match l with [] => (e, []) | i :: l => let (e, a) := lex_loc i e in let (e, b) := go l e in (e, a ++ b) end) l e))
  end.
Definition lex_locs : list loc -> env -> env * list nat :=
  fix go (l : list loc) (e : env) : env * list nat := match l with [] => (e, []) | i :: l => let (e, a) := lex_loc i e in let (e, b) := go l e in (e, a ++ b) end.
(** g: inside a distribution block with a forall *)
Fixpoint lex (g : bool) (i : ext) (e : env) : env * list nat :=
  match i with
  | Use n => (e, [kind_in e n])
  | Typedef n => ((n, typedefname) :: e, [])
  | Agg n f => (if known e n then e else (n, agg_kind (f || g)) :: e, [])
  | Dist f l => (fix go (l : list ext) (e : env) : env * list nat := match l with [] => (e, []) | i :: l => let (e, a) := lex (f || g) i e in let (e, b) := go l e in (e, a ++ b) end) l e
  | Func l => (e, snd (lex_locs l e))
  end.
Definition lexs (g : bool) : list ext -> env -> env * list nat :=
  fix go (l : list ext) (e : env) : env * list nat := match l with [] => (e, []) | i :: l => let (e, a) := lex g i e in let (e, b) := go l e in (e, a ++ b) end.
(** function bodies without inner blocks *)
Definition flat_loc (i : loc) : Prop := match i with Lblock _ => False | _ => True end.
Fixpoint flat (i : ext) : Prop :=
  match i with Func l => Forall flat_loc l | Dist _ l => fold_right (fun i P => flat i /\ P) True l | _ => True end.
(** an external definition inside nested distribution blocks, outermost first *)
Definition nest (fs : list bool) (i : ext) : ext := fold_right (fun f i => Dist f [i]) i fs.
(** The repair: in a block, as at file level, each declaration has a scope of its own. *)
Fixpoint fix_loc (i : loc) (s : st) : option st :=
  match i with
  | Luse n => Some (use n s)
  | Ltypedef n => bind (add_enclosing n typedefname (enter s)) leave
  | Lagg n f => bind (agg n f (enter s)) leave
  | Lblock l => bind ((fix go (l : list loc) (s : st) : option st := match l with [] => Some s | i :: l => bind (fix_loc i s) (go l) end) l (enter s)) leave
  end.
Definition fix_locs : list loc -> st -> option st := fix go (l : list loc) (s : st) : option st := match l with [] => Some s | i :: l => bind (fix_loc i s) (go l) end.
Fixpoint fix_run (i : ext) (s : st) : option st :=
  match i with
  | Dist f l => bind (bind (up f (enter s)) ((fix go (l : list ext) (s : st) : option st := match l with [] => Some s | i :: l => bind (fix_run i s) (go l) end) l)) (fun s => leave (down s))
  | Func l => bind (fix_loc (Lblock l) (enter s)) leave
  | i => run i s
  end.
Definition fix_runs : list ext -> st -> option st := fix go (l : list ext) (s : st) : option st := match l with [] => Some s | i :: l => bind (fix_run i s) (go l) end.
