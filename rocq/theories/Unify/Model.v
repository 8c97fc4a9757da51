(** Unification of types: src/ResolvExpr/Unify.cpp:111-134,253-705, common types: src/ResolvExpr/CommonType.cpp:347-791, type environments: src/AST/TypeEnvironment.cpp:84-89,144-228,249-463. *)
From Coq Require Import List Bool Arith.
Import ListNotations.
(** CV::Qualifiers, AST/CVQualifiers.hpp:25-71; restrict does not take part in comparisons and is left out *)
Record quals := Q { qc : bool; qv : bool; qm : bool; qa : bool }.
Definition noq : quals := Q false false false false.
Definition qeq (a b : quals) : bool := Bool.eqb (qc a) (qc b) && Bool.eqb (qv a) (qv b) && Bool.eqb (qm a) (qm b) && Bool.eqb (qa a) (qa b).
Definition qle (a b : quals) : bool := implb (qc a) (qc b) && implb (qv a) (qv b) && implb (qm b) (qm a) && Bool.eqb (qa a) (qa b).
Definition qgt (a b : quals) : bool := negb (qeq b a) && qle b a.
Definition qor (a b : quals) : quals := Q (qc a || qc b) (qv a || qv b) (qm a || qm b) (qa a || qa b).
Inductive kind := Dtype | Ftype.
Definition kind_eqb (a b : kind) : bool := match a, b with Dtype, Dtype | Ftype, Ftype => true | _, _ => false end.
(** Types. Simplifications: no tuples, no ttype variables, no variadic functions, no forall clauses inside types, no traits; structs and unions are one kind of aggregate with its name as identity; an array
    dimension is a known constant or missing; a type variable is its TypeEnvKey. *)
Inductive ty :=
  | Void (q : quals)
  | Basic (q : quals) (k : nat)
  | Ptr (q : quals) (t : ty)
  | Ref (q : quals) (t : ty)
  | Arr (q : quals) (d : option nat) (t : ty)
  | Fun (q : quals) (ps rs : list ty)
  | Agg (q : quals) (n : nat) (ps : list ty)
  | Enm (q : quals) (n : nat)
  | TVar (q : quals) (v : nat)
  | Zero (q : quals)
  | One (q : quals).
Definition qof (t : ty) : quals := match t with Void q | Basic q _ | Ptr q _ | Ref q _ | Arr q _ _ | Fun q _ _ | Agg q _ _ | Enm q _ | TVar q _ | Zero q | One q => q end.
Definition setq (q : quals) (t : ty) : ty :=
  match t with
  | Void _ => Void q | Basic _ k => Basic q k | Ptr _ b => Ptr q b | Ref _ b => Ref q b | Arr _ d b => Arr q d b | Fun _ ps rs => Fun q ps rs
  | Agg _ n ps => Agg q n ps | Enm _ n => Enm q n | TVar _ v => TVar q v | Zero _ => Zero q | One _ => One q
  end.
Definition addq (q : quals) (t : ty) : ty := setq (qor (qof t) q) t.
(** remove_qualifiers( t, Const | Volatile | Atomic ), in flattenList, Unify.cpp:111-134 *)
Definition strip (t : ty) : ty := setq (Q false false (qm (qof t)) false) t.
Fixpoint tvars (t : ty) : list nat :=
  match t with
  | Void _ | Basic _ _ | Enm _ _ | Zero _ | One _ => []
  | Ptr _ b | Ref _ b | Arr _ _ b => tvars b
  | Fun _ ps rs => concat (map tvars ps) ++ concat (map tvars rs)
  | Agg _ _ ps => concat (map tvars ps)
  | TVar _ v => [v]
  end.
(** stripReferences, AST/Type.cpp:42-47 *)
Fixpoint stripref (t : ty) : ty := match t with Ref _ b => stripref b | _ => t end.
Fixpoint depth (t : ty) : nat := match t with Ref _ b => S (depth b) | _ => 0 end.
(** what the declarations say: name, kind and completeness of type variables; the table of common basic types; enumerations: inlined children, C enums, enums with a base type *)
Record decls := D { nm : nat -> nat; kd : nat -> kind; sized : nat -> bool; ct : nat -> nat -> nat; child : nat -> nat -> bool; cenum : nat -> bool; typed : nat -> bool }.
(** isFtype, TypeEnvironment.cpp:250-256 *)
Definition isftype (d : decls) (t : ty) : bool := match t with Fun _ _ _ => true | TVar _ v => match kd d v with Ftype => true | _ => false end | _ => false end.
(** isComplete, AST/Type.hpp:73-378 *)
Definition complete (d : decls) (t : ty) : bool := match t with Void _ => false | Arr _ None _ => false | TVar _ v => sized d v | _ => true end.
(** tyVarCompatible, TypeEnvironment.cpp:260-277; the data of a variable in the open set is that of its declaration *)
Definition compat (d : decls) (v : nat) (t : ty) : bool :=
  match kd d v with
  | Dtype => negb (isftype d t) && (negb (sized d v) || complete d t)
  | Ftype => isftype d t
  end.
(** EqvClass, TypeEnvironment.hpp:96-124; the id stands for the node of the std::list, so that iterators can be compared and dangle; the data of the class is never read and is left out *)
Record cls := C { id : nat; vars : list nat; bound : option ty; allow : bool }.
Definition env := list cls.
Definition mem (v : nat) (l : list nat) : bool := existsb (Nat.eqb v) l.
Definition lookup (E : env) (v : nat) : option cls := find (fun c => mem v (vars c)) E.
Definition get (E : env) (i : nat) : option cls := find (fun c => Nat.eqb (id c) i) E.
Definition put (E : env) (c : cls) : env := map (fun x => if Nat.eqb (id x) (id c) then c else x) E.
Definition erase (E : env) (i : nat) : env := filter (fun x => negb (Nat.eqb (id x) i)) E.
Definition fresh (E : env) : nat := S (list_max (map id E)).
(** insertion into an unordered set *)
Definition add_var (l : list nat) (v : nat) : list nat := if mem v l then l else l ++ [v].
Definition add_vars (l m : list nat) : list nat := fold_left add_var m l.
(** occurs, TypeEnvironment.cpp:144-177: the visitor goes on after a hit; None = out of fuel *)
Definition orall (l : list (option bool)) : option bool := fold_right (fun a r => match a, r with Some x, Some y => Some (x || y) | _, _ => None end) (Some false) l.
Fixpoint occ (f : nat) (E : env) (vs : list nat) (t : ty) : option bool :=
  match f with
  | O => None
  | S f' => orall (map (fun v => if mem v vs then Some true
                                 else match lookup E v with
                                      | Some c => match bound c with Some b => occ f' E vs b | None => Some false end
                                      | None => Some false
                                      end) (tvars t))
  end.
Definition occurs (f : nat) (E : env) (t : ty) (v : nat) : option bool := occ f E (match lookup E v with Some c => vars c | None => [v] end) t.
(** WidenMode *)
Definition widen := (bool * bool)%type.
Definition nowiden : widen := (false, false).
Definition wand (a b : widen) : widen := (fst a && fst b, snd a && snd b).
(** Fuel: not enough fuel; Assert: an assertion fails; Dangling: an iterator to an erased class is used. The environment is changed even when the result is negative. *)
Inductive res (A : Type) := Fuel | Assert | Dangling | Ret (E : env) (a : A).
Arguments Fuel {A}. Arguments Assert {A}. Arguments Dangling {A}. Arguments Ret {A}.
Definition bind {A B} (r : res A) (k : env -> A -> res B) : res B := match r with Fuel => Fuel | Assert => Assert | Dangling => Dangling | Ret E a => k E a end.
(** a type variable that is open, that is, has a class *)
Definition opened (E : env) (t : ty) : option nat := match t with TVar _ v => match lookup E v with Some _ => Some v | None => None end | _ => None end.
Definition isvoid (t : ty) : bool := match t with Void _ => true | _ => false end.
Definition qmerge (w : widen) (a b : quals) : bool := (qle b a || fst w) && (qle a b || snd w).
(** unifyExact, Unify.cpp:644-669, with the visitor Unify, 253-619 *)
Fixpoint exact (d : decls) (f : nat) (w : widen) (t1 t2 : ty) (E : env) {struct f} : res bool :=
  match f with
  | O => Fuel
  | S f =>
      if negb (qeq (qof t1) (qof t2)) then Ret E false
      else match opened E t1, opened E t2 with
           | Some v1, Some v2 => if kind_eqb (kd d v1) (kd d v2) then bind_vv d f w v1 v2 E else Ret E false
           | Some v1, None => bind_var d f w v1 (qof t1) t2 E
           | None, Some v2 => bind_var d f w v2 (qof t2) t1 E
           | None, None =>
               match t1, t2 with
               | Void _, Void _ | Zero _, Zero _ | One _, One _ => Ret E true
               | Basic _ k1, Basic _ k2 => Ret E (Nat.eqb k1 k2)
               | Ptr _ a, Ptr _ b => exact d f nowiden a b E
               | Ref _ a, Ref _ b => exact d f nowiden a b E
               | Arr _ d1 a, Arr _ d2 b =>
                   if match d1, d2 with Some x, Some y => Nat.eqb x y | _, _ => true end then exact d f nowiden a b E else Ret E false
               | Fun _ ps1 rs1, Fun _ ps2 rs2 =>
                   if Nat.eqb (length ps1) (length ps2) && Nat.eqb (length rs1) (length rs2)
                   then bind (lists d f (map strip ps1) (map strip ps2) E) (fun E (ok : bool) => if ok then lists d f rs1 rs2 E else Ret E false)
                   else Ret E false
               | Agg _ n1 ps1, Agg _ n2 ps2 => if Nat.eqb n1 n2 then lists d f ps1 ps2 E else Ret E false
               | Enm _ n1, Enm _ n2 => Ret E (Nat.eqb n1 n2)
               | TVar _ v1, TVar _ v2 => Ret E (Nat.eqb (nm d v1) (nm d v2))
               | _, _ => Ret E false
               end
           end
  end
(** unifyTypeList, Unify.cpp:323-372, and the loop of handleGenericRefType, 463-507 *)
with lists (d : decls) (f : nat) (l1 l2 : list ty) (E : env) {struct f} : res bool :=
  match f with
  | O => Fuel
  | S f =>
      match l1, l2 with
      | [], [] => Ret E true
      | x :: r1, y :: r2 => bind (exact d f nowiden x y E) (fun E (ok : bool) => if ok then lists d f r1 r2 E else Ret E false)
      | _, _ => Ret E false
      end
  end
(** bindVar, TypeEnvironment.cpp:280-317 *)
with bind_var (d : decls) (f : nat) (w : widen) (v : nat) (q : quals) (t : ty) (E : env) {struct f} : res bool :=
  match f with
  | O => Fuel
  | S f =>
      let tg := stripref t in
      if negb (compat d v tg) then Ret E false
      else match occurs f E tg v with
           | None => Fuel
           | Some true => Ret E false
           | Some false =>
               match lookup E v with
               | None => Ret (E ++ [C (fresh E) [v] (Some (setq noq tg)) (fst w && snd w)]) true
               | Some c =>
                   match bound c with
                   | None => Ret (put E (C (id c) (vars c) (Some (setq noq tg)) (fst w && snd w))) true
                   | Some b =>
                       bind (inexact d f (wand w (allow c, true)) (setq q b) tg E) (fun E r =>
                         match r with
                         | None => Ret E false
                         | Some t => match get E (id c) with
                                     | None => Dangling
                                     | Some c => Ret (put E (C (id c) (vars c) (Some (setq noq t)) (allow c))) true
                                     end
                         end)
                   end
               end
           end
  end
(** bindVarToVar, TypeEnvironment.cpp:319-398 *)
with bind_vv (d : decls) (f : nat) (w : widen) (v1 v2 : nat) (E : env) {struct f} : res bool :=
  match f with
  | O => Fuel
  | S f =>
      match lookup E v1, lookup E v2 with
      | None, None => Ret (E ++ [C (fresh E) (add_var [v1] v2) None false]) true
      | Some c1, None =>
          match match bound c1 with Some b => occurs f E b v2 | None => Some false end with
          | None => Fuel
          | Some true => Ret E false
          | Some false => Ret (put E (C (id c1) (add_var (vars c1) v2) (bound c1) (fst w && allow c1))) true
          end
      | None, Some c2 =>
          match match bound c2 with Some b => occurs f E b v1 | None => Some false end with
          | None => Fuel
          | Some true => Ret E false
          | Some false => Ret (put E (C (id c2) (add_var (vars c2) v1) (bound c2) (snd w && allow c2))) true
          end
      | Some c1, Some c2 =>
          if Nat.eqb (id c1) (id c2) then Ret (put E (C (id c1) (vars c1) (bound c1) (allow c1 && (fst w && snd w)))) true
          else match match bound c1 with Some b => occurs f E b v2 | None => Some false end with
               | None => Fuel
               | Some true => Ret E false
               | Some false =>
               match match bound c2 with Some b => occurs f E b v1 | None => Some false end with
               | None => Fuel
               | Some true => Ret E false
               | Some false =>
                   let w1 := fst w && allow c1 in
                   let w2 := snd w && allow c2 in
                   match bound c1, bound c2 with
                   | Some b1, Some b2 =>
                       bind (inexact d f (w1, w2) b1 b2 E) (fun E r =>
                         match r with
                         | None => Ret E false
                         | Some t =>
                             match get E (id c1), get E (id c2) with
                             | Some c1, Some c2 => Ret (erase (put E (C (id c1) (add_vars (vars c1) (vars c2)) (Some (setq noq t)) (w1 && w2))) (id c2)) true
                             | _, _ => Dangling
                             end
                         end)
                   | Some _, None => Ret (erase (put E (C (id c1) (add_vars (vars c1) (vars c2)) (bound c1) w1)) (id c2)) true
                   | None, _ => Ret (erase (put E (C (id c2) (add_vars (vars c2) (vars c1)) (bound c2) w2)) (id c1)) true
                   end
               end end
      end
  end
(** unifyInexact, Unify.cpp:671-705 *)
with inexact (d : decls) (f : nat) (w : widen) (t1 t2 : ty) (E : env) {struct f} : res (option ty) :=
  match f with
  | O => Fuel
  | S f =>
      let q1 := qof t1 in
      let q2 := qof t2 in
      bind (exact d f w (setq noq t1) (setq noq t2) E) (fun E (ok : bool) =>
        if ok
        then Ret E (if qeq q1 q2 || ((qgt q1 q2 || fst w) && (qgt q2 q1 || snd w)) then Some (setq (qor q1 q2) t1) else None)
        else bind (common d f w (setq noq t1) (setq noq t2) E) (fun E r => Ret E (match r with Some c => Some (setq (qor q1 q2) c) | None => None end)))
  end
(** commonType, CommonType.cpp:748-791, with the visitor CommonType, 347-712 *)
with common (d : decls) (f : nat) (w : widen) (t1 t2 : ty) (E : env) {struct f} : res (option ty) :=
  match f with
  | O => Fuel
  | S f =>
      if negb (Nat.eqb (depth t1) (depth t2))
      then bind (match t1, t2 with
                 | Ref _ b, _ => if Nat.ltb (depth t2) (depth t1) then href d f w b t2 E else match t2 with Ref _ b2 => href d f w t1 b2 E | _ => Assert end
                 | _, Ref _ b2 => href d f w t1 b2 E
                 | _, _ => Assert
                 end) (fun E r => Ret E (match r, t1 with Some c, Ref q _ => Some (Ref q c) | r, _ => r end))
      else match t1, t2 with
           | Basic q1 k1, Basic q2 k2 =>
               Ret E (if negb (Nat.eqb k1 k2) && negb (fst w) && negb (snd w) then None
                      else let k := if negb (fst w) then k1 else if negb (snd w) then k2 else ct d k1 k2 in
                        if qmerge w q1 q2 then Some (Basic (qor q1 q2) k) else None)
           | Basic q1 k1, Zero q2 | Basic q1 k1, One q2 => Ret E (if snd w then Some (Basic (qor q1 q2) k1) else None)
           | Basic q1 k1, Enm q2 n =>
               Ret E (if cenum d n
                      then let k := ct d k1 6 in
                        if ((Nat.eqb k k1 && qle q2 q1) || fst w) && ((negb (Nat.eqb k k1) && qle q1 q2) || snd w) then Some (Basic (qor q1 q2) k) else None
                      else None)
           | Ptr q1 b1, Ptr q2 b2 =>
               if fst w && isvoid b2 && negb (isftype d b1) then voidptr d f w t2 q1 b2 b1 E
               else if snd w && isvoid b1 && negb (isftype d b2) then voidptr d f w t1 q2 b1 b2 E
               else if qmerge w (qof b1) (qof b2)
               then bind (exact d f nowiden (setq noq b1) (setq noq b2) E) (fun E (ok : bool) =>
                      if ok then Ret E (Some (Ptr q1 (if qeq (qof b1) (qof b2) then b1 else setq (qor (qof b1) (qof b2)) b1)))
                      else if isftype d b1 && isftype d b2
                      then match b1, b2 with
                           | Fun _ ps1 rs1, Fun _ ps2 rs2 =>
                               if Nat.leb (length rs1) 1 && Nat.leb (length rs2) 1
                               then if Nat.eqb (length ps1) (length ps2) && Nat.eqb (length rs1) (length rs2)
                                    then bind (fparams d f w (map strip ps1) (map strip ps2) E) (fun E (ok : bool) =>
                                           if ok then bind (lists d f rs1 rs2 E) (fun E (ok : bool) => Ret E (if ok then Some t1 else None))
                                           else Ret E None)
                                    else Ret E None
                               else Assert
                           | Fun _ _ _, _ => Assert
                           | _, _ => Ret E None
                           end
                      else Ret E None)
               else Ret E None
           | Ptr q1 b1, Zero q2 => Ret E (if snd w then Some (addq q2 t1) else None)
           | Ref q1 b1, Ref q2 b2 =>
               if fst w && isvoid b2 && negb (isftype d b1) then voidptr d f w t2 q1 b2 b1 E
               else if snd w && isvoid b1 && negb (isftype d b2) then voidptr d f w t1 q2 b1 b2 E
               else if qmerge w (qof b1) (qof b2)
               then bind (exact d f nowiden (setq noq b1) (setq noq b2) E) (fun E (ok : bool) =>
                      Ret E (if ok then Some (Ref q1 (if qeq (qof b1) (qof b2) then b1 else setq (qor (qof b1) (qof b2)) b1)) else None))
               else Ret E None
           | Enm _ n1, Enm _ n2 => Ret E (if child d n1 n2 then Some t1 else None)
           | Enm _ n1, _ => if cenum d n1 then common d f w (Basic noq 7) t2 E else Ret E None
           | Zero q1, Basic q2 _ | Zero q1, Ptr q2 _ => Ret E (if fst w && (snd w || qle q1 q2) then Some (addq q1 t2) else None)
           | Zero q1, One q2 | One q1, Zero q2 => Ret E (if fst w && snd w then Some (Basic (qor q1 q2) 6) else None)
           | One q1, Basic q2 _ => Ret E (if fst w && (snd w || qle q1 q2) then Some (addq q1 t2) else None)
           | Zero q1, Enm q2 n | One q1, Enm q2 n => Ret E (if fst w && negb (typed d n) && (snd w || qle q1 q2) then Some (addq q1 t2) else None)
           | _, _ => Ret E None
           end
  end
(** handleReference, CommonType.cpp:716-744: it unifies with widening allowed on both sides *)
with href (d : decls) (f : nat) (w : widen) (t1 t2 : ty) (E : env) {struct f} : res (option ty) :=
  match f with
  | O => Fuel
  | S f => bind (inexact d f (true, true) t1 t2 E) (fun E r =>
             Ret E (match r with
                    | Some c => if (fst w || qle (qof t2) (qof t1)) && (snd w || qle (qof t1) (qof t2)) then Some (addq (qor (qof t1) (qof t2)) c) else None
                    | None => None
                    end))
  end
(** getCommonWithVoidPointer, CommonType.cpp:403-417: vp is the pointer to void vb, oq the qualifiers of the other pointer and ob its base *)
with voidptr (d : decls) (f : nat) (w : widen) (vp : ty) (oq : quals) (vb ob : ty) (E : env) {struct f} : res (option ty) :=
  match f with
  | O => Fuel
  | S f =>
      match opened E ob with
      | Some v => bind (bind_var d f w v (qof ob) vb E) (fun E (ok : bool) => Ret E (if ok then Some (addq oq vp) else None))
      | None => Ret E (Some (addq oq vp))
      end
  end
(** the parameters of two function types under pointers, CommonType.cpp:471-559 *)
with fparams (d : decls) (f : nat) (w : widen) (l1 l2 : list ty) (E : env) {struct f} : res bool :=
  match f with
  | O => Fuel
  | S f =>
      let next E (ok : bool) := match l1, l2 with _ :: r1, _ :: r2 => if ok then fparams d f w r1 r2 E else Ret E false | _, _ => Ret E false end in
      match l1, l2 with
      | [], [] => Ret E true
      | x :: _, y :: _ =>
          match x, y with
          | Ref q1 b1, Ref q2 b2 =>
              if (snd w && qm q2) || Bool.eqb (qm q1) (qm q2)
              then if (snd w && qle (qof b1) (qof b2)) || qeq (qof b2) (qof b1) then bind (exact d f nowiden (setq noq b1) (setq noq b2) E) next else next E true
              else Ret E false
          | Ref _ _, _ => Ret E false
          | Ptr _ b1, Ptr _ b2 => if (snd w && qle (qof b1) (qof b2)) || qeq (qof b2) (qof b1) then bind (exact d f nowiden (setq noq b1) (setq noq b2) E) next else next E true
          | Ptr _ _, _ => Ret E false
          | _, _ => bind (exact d f nowiden x y E) next
          end
      | _, _ => Ret E false
      end
  end.
(** mergeBound, TypeEnvironment.cpp:409-435: to is the id of a class of E *)
Definition merge_bound (d : decls) (f : nat) (to : nat) (from : cls) (E : env) : res bool :=
  match get E to with
  | None => Dangling
  | Some c =>
      let fin E (b : option ty) := match get E to with Some c => Ret (put E (C to (vars c) b (allow c && allow from))) true | None => Dangling end in
      match bound from, bound c with
      | Some b2, Some b1 => bind (inexact d f (allow c, allow from) b1 b2 E) (fun E r => match r with Some t => fin E (Some (setq noq t)) | None => Ret E false end)
      | Some b2, None => fin E (Some b2)
      | None, b => fin E b
      end
  end.
Fixpoint none_occur (f : nat) (E : env) (b : ty) (vs : list nat) : option bool :=
  match vs with
  | [] => Some true
  | v :: r => match occurs f E b v with None => None | Some true => Some false | Some false => none_occur f E b r end
  end.
(** mergeClasses, TypeEnvironment.cpp:437-456 *)
Definition merge_classes (d : decls) (f : nat) (to from : nat) (E : env) : res bool :=
  match get E from with
  | None => Dangling
  | Some s =>
      bind (merge_bound d f to s E) (fun E (ok : bool) =>
        if ok then
          match get E to, get E from with
          | Some r, Some s =>
              match match bound r with Some b => none_occur f E b (vars s) | None => Some true end with
              | None => Fuel
              | Some false => Ret E false
              | Some true => Ret (erase (put E (C to (add_vars (vars r) (vars s)) (bound r) (allow r && allow s))) from) true
              end
          | _, _ => Dangling
          end
        else Ret E false)
  end.
(** combine, TypeEnvironment.cpp:179-228. The order of the variables of a class is the order of the hash set. First the loop over the variables of c when r has a bound, 205-208. *)
Fixpoint emplace (d : decls) (f : nat) (r : nat) (vs : list nat) (E : env) : res bool :=
  match vs with
  | [] => Ret E true
  | u :: vs =>
      match get E r with
      | None => Dangling
      | Some c =>
          match match bound c with Some b => occurs f E b u | None => Some false end with
          | None => Fuel
          | Some true => Ret E false
          | Some false => emplace d f r vs (put E (C r (add_var (vars c) u) (bound c) (allow c)))
          end
      end
  end.
(** the loop over the variables after the first one found, 210-220 *)
Fixpoint later (d : decls) (f : nat) (r : nat) (vs : list nat) (E : env) : res bool :=
  match vs with
  | [] => Ret E true
  | u :: vs =>
      match lookup E u with
      | None => bind (emplace d f r [u] E) (fun E (ok : bool) => if ok then later d f r vs E else Ret E false)
      | Some s => if Nat.eqb (id s) r then later d f r vs E
                  else bind (merge_classes d f r (id s) E) (fun E (ok : bool) => if ok then later d f r vs E else Ret E false)
      end
  end.
(** the variables before the first one that has a class, the class, and the variables after it, 195-198 *)
Fixpoint split_vars (E : env) (vs : list nat) : option (list nat * nat * list nat) :=
  match vs with
  | [] => None
  | v :: r => match lookup E v with
              | Some c => Some ([], id c, r)
              | None => match split_vars E r with Some (b, i, a) => Some (v :: b, i, a) | None => None end
              end
  end.
Definition merge_one (d : decls) (f : nat) (c : cls) (E : env) : res bool :=
  match split_vars E (vars c) with
  | None => Ret (E ++ [C (fresh E) (vars c) (bound c) (allow c)]) true
  | Some (before, r, after) =>
      bind (merge_bound d f r c E) (fun E (ok : bool) =>
        if ok then
          match get E r with
          | None => Dangling
          | Some k =>
              bind (match bound k with
                    | Some _ => emplace d f r (vars c) E
                    | None => Ret (put E (C r (add_vars (vars k) before) None (allow k))) true
                    end) (fun E (ok : bool) => if ok then later d f r after E else Ret E false)
          end
        else Ret E false)
  end.
Fixpoint combine_ (d : decls) (f : nat) (o : list cls) (E : env) : res bool :=
  match o with
  | [] => Ret E true
  | c :: o => bind (merge_one d f c E) (fun E (ok : bool) => if ok then combine_ d f o E else Ret E false)
  end.
(** the short cut for an empty environment copies the other, with its list nodes *)
Definition combine (d : decls) (f : nat) (o : env) (E : env) : res bool := match E with [] => Ret o true | _ => combine_ d f o E end.
