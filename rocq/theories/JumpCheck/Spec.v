(** Executions of a function body: where control is, and which objects are alive *)
From Coq Require Import List Bool Arith.
From Verif.JumpCheck Require Import Model.
Import ListNotations.
(** A position: for every compound statement around it, innermost first, what is before and what comes next *)
Definition frame := (list stmt * list stmt)%type.
Definition own (p : list stmt) : list nat := flat_map (fun x => match x with Decl _ o => [o] | _ => [] end) p.
(** the objects whose scope a position is in: declared before it in a compound statement around it *)
Fixpoint scope (z : list frame) : list nat := match z with [] => [] | (p, _) :: k => scope k ++ own p end.
(** the positions of a body *)
Inductive pos (body : list stmt) : list frame -> Prop :=
| pos_top p q : p ++ q = body -> pos body [(p, q)]
| pos_block p q r s ls k : pos body ((r, Block ls (p ++ q) :: s) :: k) -> pos body ((p, q) :: (r ++ [Block ls (p ++ q)], s) :: k)
| pos_then p q b r s ls k : pos body ((r, If ls (p ++ q) b :: s) :: k) -> pos body ((p, q) :: (r ++ [If ls (p ++ q) b], s) :: k)
| pos_else p q a r s ls k : pos body ((r, If ls a (p ++ q) :: s) :: k) -> pos body ((p, q) :: (r ++ [If ls a (p ++ q)], s) :: k)
| pos_loop p q r s ls k : pos body ((r, Loop ls (p ++ q) :: s) :: k) -> pos body ((p, q) :: (r, Loop ls (p ++ q) :: s) :: k).
Definition labelled (l : nat) (z : list frame) : Prop := exists p x q k, z = (p, x :: q) :: k /\ In l (labels x).
(** one step, and the objects it constructs *)
Inductive step (body : list stmt) : list frame -> list frame -> list nat -> Prop :=
| s_decl p ls o q k : step body ((p, Decl ls o :: q) :: k) ((p ++ [Decl ls o], q) :: k) [o]
| s_simple p ls q k : step body ((p, Simple ls :: q) :: k) ((p ++ [Simple ls], q) :: k) []
| s_fun p ls b q k : step body ((p, Fun ls b :: q) :: k) ((p ++ [Fun ls b], q) :: k) []
| s_block p ls b q k : step body ((p, Block ls b :: q) :: k) (([], b) :: (p ++ [Block ls b], q) :: k) []
| s_then p ls a b q k : step body ((p, If ls a b :: q) :: k) (([], a) :: (p ++ [If ls a b], q) :: k) []
| s_else p ls a b q k : step body ((p, If ls a b :: q) :: k) (([], b) :: (p ++ [If ls a b], q) :: k) []
| s_loop p ls b q k : step body ((p, Loop ls b :: q) :: k) (([], b) :: (p, Loop ls b :: q) :: k) []
| s_exit p ls b q k : step body ((p, Loop ls b :: q) :: k) ((p ++ [Loop ls b], q) :: k) []
| s_end p k : step body ((p, []) :: k) k []
| s_ret p ls q k : step body ((p, Ret ls :: q) :: k) [] []
| s_goto p ls l q k z : pos body z -> labelled l z -> step body ((p, Goto ls l :: q) :: k) z []
| s_comp p ls l q k z : pos body z -> labelled l z -> step body ((p, Comp ls :: q) :: k) z [].
(** objects are destroyed when control leaves their scope, the last constructed first *)
Inductive ev := EC (o : nat) | ED (o : nat).
Definition inb (o : nat) (l : list nat) : bool := existsb (Nat.eqb o) l.
Definition kept (z : list frame) (live : list nat) : list nat := filter (fun o => inb o (scope z)) live.
Definition left_ (z : list frame) (live : list nat) : list nat := filter (fun o => negb (inb o (scope z))) live.
Inductive exec (body : list stmt) : list ev -> list frame -> list nat -> Prop :=
| e_start : exec body [] [([], body)] []
| e_step tr z live z' c : exec body tr z live -> step body z z' c ->
    exec body (tr ++ map ED (rev (left_ z' live)) ++ map EC c) z' (kept z' live ++ c).
(** Declarations are distinct objects; labels of a function are distinct *)
Fixpoint objs (x : stmt) : list nat := match x with Decl _ o => [o] | Block _ b | Loop _ b | Fun _ b => flat_map objs b | If _ a b => flat_map objs a ++ flat_map objs b | _ => [] end.
Fixpoint labs (x : stmt) : list nat := labels x ++ match x with Block _ b | Loop _ b => flat_map labs b | If _ a b => flat_map labs a ++ flat_map labs b | _ => [] end.
(** the bodies of the functions declared in a statement, at any depth *)
Fixpoint funs (x : stmt) : list (list stmt) := match x with Fun _ b => b :: flat_map funs b | Block _ b | Loop _ b => flat_map funs b | If _ a b => flat_map funs a ++ flat_map funs b | _ => [] end.
Definition functions (body : list stmt) : list (list stmt) := body :: flat_map funs body.
Definition well_formed (body : list stmt) : Prop := NoDup (flat_map objs body) /\ forall f, In f (functions body) -> NoDup (flat_map labs f).
(** no computed goto in the function itself *)
Fixpoint simple_jumps (x : stmt) : bool := match x with Comp _ => false | Block _ b | Loop _ b => forallb simple_jumps b | If _ a b => forallb simple_jumps a && forallb simple_jumps b | _ => true end.
(** a jump over a construction *)
Definition crosses (body : list stmt) : Prop :=
  exists p ls l q k z o, pos body ((p, Goto ls l :: q) :: k) /\ pos body z /\ labelled l z /\ In o (scope z) /\ ~ In o (scope ((p, Goto ls l :: q) :: k)).
Definition cnt (f : ev -> bool) (t : list ev) : nat := length (filter f t).
Definition isC (o : nat) (e : ev) : bool := match e with EC x => x =? o | _ => false end.
Definition isD (o : nat) (e : ev) : bool := match e with ED x => x =? o | _ => false end.
