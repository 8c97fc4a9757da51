(** Reference semantics: a stack of environments (partial functions), innermost first. *)
From Coq Require Import ZArith List Bool.
From Verif.ScopedMap Require Import Model.
Import ListNotations.
Open Scope Z_scope.

Section S.
Context {V : Type}.
Definition env := Z -> option V.
Definition empty : env := fun _ => None.
Definition bind (e : env) (k : Z) (v : V) : env := fun x => if x =? k then Some v else e x.
Definition unbind (e : env) (k : Z) : env := fun x => if x =? k then None else e x.
Definition bound (e : env) (k : Z) : bool := match e k with Some _ => true | None => false end.

(** binding of the innermost environment that binds k, with its depth counted from the outermost (0) *)
Fixpoint lookup (es : list env) (k : Z) : option (nat * V) :=
  match es with [] => None | e :: r => match e k with Some v => Some (length r, v) | None => lookup r k end end.
Definition number_bound (es : list env) (k : Z) : nat := length (filter (fun e => bound e k) es).
(** replace the environment at depth l (from the outermost) *)
Definition update (es : list env) (l : nat) (f : env -> env) : list env :=
  map (fun p => if Nat.eqb (fst p) l then f (snd p) else snd p) (combine (rev (seq 0 (length es))) es).
Definition env_at (es : list env) (l : nat) : option env := nth_error (rev es) l.

Definition spec_step (dflt : V) (es : list env) (o : op V) : option (list env) * out V :=
  let top := (length es - 1)%nat in
  let ins l k v := match env_at es l with
                   | None => (None, Stop)
                   | Some e => if bound e k then (Some es, Bool false) else (Some (update es l (fun e => bind e k v)), Bool true)
                   end in
  match o with
  | Begin => (Some (empty :: es), Unit)
  | End => if Nat.leb (length es) 1 then (None, Stop) else (Some (tl es), Unit)
  | Insert k v => ins top k v
  | InsertAt l k v => ins l k v
  | Erase k => match lookup es k with
               | None => (Some es, Num 0)
               | Some (l, _) => (Some (update es l (fun e => unbind e k)), Num 1)
               end
  | Find k => (Some es, Val (lookup es k))
  | Contains k => (Some es, Bool (match lookup es k with Some _ => true | None => false end))
  | Count k => (Some es, Num (Z.of_nat (number_bound es k)))
  | Index k => match lookup es k with
               | Some (_, v) => (Some es, Slot v)
               | None => (Some (update es top (fun e => bind e k dflt)), Slot dflt)
               end
  end.
Fixpoint spec_run (dflt : V) (es : list env) (os : list (op V)) : option (list env) * list (out V) :=
  match os with
  | [] => (Some es, [])
  | o :: r => match spec_step dflt es o with
              | (Some s', x) => let (f, xs) := spec_run dflt s' r in (f, x :: xs)
              | (None, x) => (None, [x])
              end
  end.

(** well-bracketed sequences of insertions and look-ups *)
Inductive inner : list (op V) -> Prop :=
| in_nil : inner []
| in_insert k v os : inner os -> inner (Insert k v :: os)
| in_index k os : inner os -> inner (Index k :: os)
| in_find k os : inner os -> inner (Find k :: os)
| in_scope a b : inner a -> inner b -> inner (Begin :: a ++ End :: b).
End S.
Arguments env : clear implicits.
