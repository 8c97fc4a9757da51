(** The specialization cost of a type: src/ResolvExpr/SpecCost.cpp, with the order of visits of src/AST/Pass.impl.hpp.
    Not modelled: dimension expressions of arrays, arguments of enumerations and of type variables, typeof, vtable and qualified types. *)
From Coq Require Import List Bool ZArith.
Import ListNotations.
Local Open Scope Z_scope.
(** numeric_limits<int>::max() *)
Definition mx : Z := 2147483647.
(** Leaf: a type without children whose visit leaves the count (void, basic types, ...). Level: pointer, array or reference. Inst: struct or union with
    generic arguments, each a TypeExpr; the flag tells if its result is set (src/AST/Expr.hpp:617-627: the constructor does not). *)
Inductive ty := Leaf | Var | Level (t : ty) | Func (ps rs : list ty) | Tuple (ts : list ty) | Inst (args : list (bool * ty)).
(** 40-43 *)
Definition noneOrInc (m : Z) : Z := if m <? mx then m + 1 else -1.
(** 75-80 *)
Definition inc (c : Z) : Z := if 0 <=? c then c + 1 else c.
(** 59 *)
Definition better (c m : Z) : Z := if negb (c =? -1) && (c <? m) then c else m.
(** c: count before the visit; the result is count after it *)
Fixpoint visit (t : ty) (c : Z) {struct t} : Z :=
  match t with
  | Leaf => c
  | Var => 0                                                       (* 105 *)
  | Level t => inc (visit t c)                                     (* 75-77; Pass.impl.hpp:1854-1890 *)
  | Func ps rs =>                                                  (* 83-91, 50-61 *)
      let m := fold_left (fun m t => better (visit t (-1)) m) ps mx in
      noneOrInc (fold_left (fun m t => better (visit t (-1)) m) rs m)
  | Tuple ts => noneOrInc (fold_left (fun m t => better (visit t (-1)) m) ts mx) (* 109-112 *)
  | Inst args =>                                                   (* 94-101, 65-69; the arguments are then visited, Pass.impl.hpp:1926-1954, 1494-1507 *)
      let c := noneOrInc (fold_left (fun m a => better (let (r, t) := a : bool * ty in if r then visit t (-1) else -1) m) args mx) in
      inc (fold_left (fun c a => let (r, t) := a : bool * ty in visit t (if r then visit t c else c)) args c)
  end.
(** 72, 117-119 *)
Definition specCost (t : ty) : Z := let c := visit t (-1) in if 0 <=? c then c else 0.
