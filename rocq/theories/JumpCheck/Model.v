(** Jumps over declarations: ObjDeclCollector, LabelFinder and InsertDtors, src/InitTweak/FixInit.cpp:132-197, 944-1036.
    Statements with their labels; at this point of the translation break and continue are jumps to labels, branches and bodies of loops are compound statements and the declarations of control statements are hoisted in front of them (no loss: a single statement stands for the compound statement of it). A switch is nested Ifs: its clauses are compound statements and the grammar has no declaration between them (src/Parser/parser.yy:1327-1336, 1404-1409).
    Simple: any statement without control transfer. Comp: computed goto. Fun: the declaration of a nested function.
    Not modelled: statement expressions, exceptions, the text of the error. *)
From Coq Require Import List Bool Arith.
Import ListNotations.
Inductive stmt :=
| Decl (ls : list nat) (x : nat) | Simple (ls : list nat) | Block (ls : list nat) (b : list stmt)
| If (ls : list nat) (a b : list stmt) | Loop (ls : list nat) (b : list stmt)
| Goto (ls : list nat) (l : nat) | Comp (ls : list nat) | Ret (ls : list nat) | Fun (ls : list nat) (b : list stmt).
Definition labels (x : stmt) : list nat :=
  match x with Decl ls _ | Simple ls | Block ls _ | If ls _ _ | Loop ls _ | Goto ls _ | Comp ls | Ret ls | Fun ls _ => ls end.
(** LabelMap, 166: a later entry replaces an earlier one *)
Notation lmap := (list (nat * list nat)).
Fixpoint find (l : nat) (m : lmap) : option (list nat) := match m with [] => None | (k, v) :: r => if k =? l then Some v else find l r end.
(** LabelFinder::previsit of Stmt, 959-964 *)
Definition record (ls : list nat) (cur : list nat) (vars : lmap) : lmap := fold_left (fun m l => (l, cur) :: m) ls vars.
(** LabelFinder: curVars and vars; the labels first (966-974), then the object (948-953); a compound statement restores curVars (944-946); not into functions (141) *)
Fixpoint finder (x : stmt) (s : list nat * lmap) : list nat * lmap :=
  let (cur, v) := s in
  let vars := record (labels x) cur v in
  let block b vars := snd (fold_left (fun s y => finder y s) b (cur, vars)) in
  match x with
  | Decl _ o => (cur ++ [o], vars)
  | Block _ b | Loop _ b => (cur, block b vars)
  | If _ a b => (cur, block b (block a vars))
  | _ => (cur, vars)
  end.
Definition label_vars (b : list stmt) : lmap := snd (fold_left (fun s y => finder y s) b ([], [])).
(** handleGoto, 992-1022: an error if an object in scope at the label is not in scope at the jump; a label not found has an empty entry *)
Definition goto_ok (vars : lmap) (l : nat) (cur : list nat) : bool :=
  forallb (fun o => existsb (Nat.eqb o) cur) (match find l vars with Some v => v | None => [] end).
(** InsertDtors: curVars, or an error; each function has its own labels (976-986) but curVars goes on; nothing for computed jumps (994) *)
Fixpoint insert (vars : lmap) (x : stmt) (cur : list nat) : option (list nat) :=
  let block vars b := match fold_left (fun s y => match s with Some c => insert vars y c | None => None end) b (Some cur) with Some _ => true | None => false end in
  match x with
  | Decl _ o => Some (cur ++ [o])
  | Block _ b | Loop _ b => if block vars b then Some cur else None
  | If _ a b => if block vars a then if block vars b then Some cur else None else None
  | Goto _ l => if goto_ok vars l cur then Some cur else None
  | Fun _ b => if block (label_vars b) b then Some cur else None
  | _ => Some cur
  end.
Definition insert_all (vars : lmap) (b : list stmt) (cur : list nat) : option (list nat) :=
  fold_left (fun s y => match s with Some c => insert vars y c | None => None end) b (Some cur).
Definition accepted (b : list stmt) : bool := match insert_all (label_vars b) b [] with Some _ => true | None => false end.
