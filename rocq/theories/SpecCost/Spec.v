(** The number of levels above the shallowest type variable *)
From Coq Require Import List Bool ZArith.
From Verif Require Import SpecCost.Model.
Import ListNotations.
Local Open Scope Z_scope.
Definition omin (a b : option Z) : option Z := match a, b with Some x, Some y => Some (Z.min x y) | Some x, None => Some x | None, _ => b end.
Definition least (l : list (option Z)) : option Z := fold_right omin None l.
Fixpoint depth (t : ty) : option Z :=
  match t with
  | Leaf => None
  | Var => Some 0
  | Level t => option_map (Z.add 1) (depth t)
  | Func ps rs => option_map (Z.add 1) (omin (least (map depth ps)) (least (map depth rs)))
  | Tuple ts => option_map (Z.add 1) (least (map depth ts))
  | Inst args => option_map (Z.add 1) (least (map (fun a => depth (snd a)) args))
  end.
Definition cost (t : ty) : Z := match depth t with Some d => d | None => 0 end.
(** number of nested constructors, below the largest int *)
Fixpoint size (t : ty) : Z :=
  match t with
  | Leaf => 1 | Var => 1
  | Level t => 1 + size t
  | Func ps rs => 1 + fold_right Z.add 0 (map size ps) + fold_right Z.add 0 (map size rs)
  | Tuple ts => 1 + fold_right Z.add 0 (map size ts)
  | Inst args => 1 + fold_right Z.add 0 (map (fun a => size (snd a)) args)
  end.
(** a generic type has at most one polymorphic argument, and only basic types behind it *)
Definition is_leaf (t : ty) : bool := match t with Leaf => true | _ => false end.
Definition poly (t : ty) : bool := match depth t with Some _ => true | None => false end.
Fixpoint tail_ok (l : list ty) : bool := match l with [] => true | t :: r => if poly t then forallb is_leaf r else tail_ok r end.
Fixpoint simple (t : ty) : bool :=
  match t with
  | Leaf => true | Var => true
  | Level t => simple t
  | Func ps rs => forallb simple ps && forallb simple rs
  | Tuple ts => forallb simple ts
  | Inst args => forallb (fun a => simple (snd a)) args && tail_ok (map snd args)
  end.
