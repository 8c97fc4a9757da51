(** What the layout is to be: that of the type with the parameters replaced. *)
From Coq Require Import ZArith List Bool.
From Verif.GenLayout Require Import Model.
Import ListNotations.
Open Scope Z_scope.
Fixpoint inst (f : nat -> ty) (t : ty) : ty := match t with Basic s a => Basic s a | Param i => f i | Arr n t => Arr n (inst f t) | Struct ts => Struct (map (inst f) ts) | Union ts => Union (map (inst f) ts) end.
Definition pow2 (a : Z) : Prop := exists k, 0 <= k < 64 /\ a = 2 ^ k.
(** types with sizes that are possible *)
Fixpoint wf (t : ty) : Prop :=
  match t with
  | Basic s a => 0 <= s < two64 /\ pow2 a
  | Param _ => True
  | Arr n t => 0 <= n /\ wf t
  | Struct ts | Union ts => (fix go ts := match ts with [] => True | t :: r => wf t /\ go r end) ts
  end.
(** all parts are less than the whole memory *)
Fixpoint small (t : ty) : Prop :=
  fst (c_layout t) < two64 /\
  match t with
  | Arr _ t => small t
  | Struct ts | Union ts => (fix go ts := match ts with [] => True | t :: r => small t /\ go r end) ts
  | _ => True
  end.
(** no union with members of size 0 only *)
Fixpoint solid (t : ty) : Prop :=
  match t with
  | Arr _ t => solid t
  | Struct ts => (fix go ts := match ts with [] => True | t :: r => solid t /\ go r end) ts
  | Union ts => 0 < fst (c_layout t) /\ (fix go ts := match ts with [] => True | t :: r => solid t /\ go r end) ts
  | _ => True
  end.
