(** Renaming of type variables: src/ResolvExpr/RenameVars.cpp:31-145, with the pass of src/AST/Pass.impl.hpp:1909-1921 (function types) and 1984-1996 (type variables),
    and ScopedMap of src/Common/ScopedMap.hpp.
    Simplifications: the key of a variable is its pair of formal_usage and expr_id, without the pointer to its declaration, which belongs to the binder like expr_id;
    types other than variables and function types are a constructor with arguments; the assertions, returns and parameters of a function type are one list in the
    order of the pass; integers do not overflow. *)
From Coq Require Import ZArith List Bool.
Import ListNotations.
Open Scope Z_scope.
Notation key := (Z * Z)%type.
(** TypeInstType with name, formal_usage, expr_id (src/AST/Type.hpp:347-355); FunctionType with its forall *)
Inductive ty := Var (n : nat) (k : key) | Con (c : nat) (l : list ty) | Fun (fa : list (nat * key)) (l : list ty).
(** ScopedMap: the innermost scope first. find, 107-114; operator[], 165-169, followed by an assignment *)
Notation scope := (list (nat * key)).
Fixpoint sfind (n : nat) (s : scope) : option key := match s with [] => None | (m, k) :: s => if Nat.eqb n m then Some k else sfind n s end.
Fixpoint find (n : nat) (m : list scope) : option key := match m with [] => None | s :: m => match sfind n s with Some k => Some k | None => find n m end end.
Fixpoint sset (n : nat) (k : key) (s : scope) : scope := match s with [] => [] | (m, x) :: s => if Nat.eqb n m then (m, k) :: s else (m, x) :: sset n k s end.
Fixpoint set_found (n : nat) (k : key) (m : list scope) : list scope :=
  match m with [] => [] | s :: m => match sfind n s with Some _ => sset n k s :: m | None => s :: set_found n k m end end.
Definition assign (n : nat) (k : key) (m : list scope) : list scope :=
  match find n m with Some _ => set_found n k m | None => match m with [] => [] | s :: m => (s ++ [(n, k)]) :: m end end.
(** GEN_EXPR_ID; GEN_USAGE with next_usage_id *)
Inductive mode := Decl | Use (u : Z).
Notation st := (list scope * Z)%type.
(** openLevel, 64-91; None: the assertion on expr_id fails *)
Fixpoint load (md : mode) (s : st) (fa : scope) : option (scope * st) :=
  match fa with
  | [] => Some ([], s)
  | (n, (u, i)) :: fa =>
    let r := match md with Decl => Some ((-1, snd s), snd s + 1) | Use u' => if i =? 0 then None else Some ((u', i), snd s) end in
    match r with
    | None => None
    | Some (k, nx) => match load md (assign n k (fst s), nx) fa with Some (fa', s') => Some ((n, k) :: fa', s') | None => None end
    end
  end.
(** previsit of TypeInstType, 121-125, and rename, 51-62 *)
Definition rename_var (md : mode) (s : st) (n : nat) (k : key) : ty :=
  match md with
  | Use _ => if fst k =? 0 then Var n k else match find n (fst s) with Some k' => Var n k' | None => Var n k end
  | Decl => match find n (fst s) with Some k' => Var n k' | None => Var n k end
  end.
(** the pass; closeLevel, 93-96 *)
Fixpoint rn (md : mode) (s : st) (t : ty) : option (ty * st) :=
  let go := fix go (s : st) (l : list ty) : option (list ty * st) :=
    match l with
    | [] => Some ([], s)
    | t :: l => match rn md s t with Some (t', s) => match go s l with Some (l', s) => Some (t' :: l', s) | None => None end | None => None end
    end in
  match t with
  | Var n k => Some (rename_var md s n k, s)
  | Con c l => match go s l with Some (l', s) => Some (Con c l', s) | None => None end
  | Fun [] l => match go s l with Some (l', s) => Some (Fun [] l', s) | None => None end
  | Fun fa l =>
    match load md ([] :: fst s, snd s) fa with
    | Some (fa', s) => match go s l with Some (l', s) => Some (Fun fa' l', (tl (fst s), snd s)) | None => None end
    | None => None
    end
  end.
(** renameTyVars with the global state: next_expr_id, next_usage_id; the map has one empty scope; 133-140 *)
Record data := D { next_expr : Z; next_usage : Z }.
Definition rename_ty_vars (gen_usage reset : bool) (d : data) (t : ty) : option (ty * data) :=
  let d := if gen_usage && reset then D (next_expr d) (next_usage d + 1) else d in
  match rn (if gen_usage then Use (next_usage d) else Decl) ([[]], next_expr d) t with
  | Some (t', s) => Some (t', D (snd s) (next_usage d))
  | None => None
  end.
