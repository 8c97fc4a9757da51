(** Model of libcfa/src/collections/pair.cfa, maybe.cfa, result.cfa and the order-based routines of common.hfa. *)
From Coq Require Import List Bool ZArith.
Import ListNotations.

(** The comparison operators of the component types, which the polymorphic operators take as assertions *)
Record ops (T : Type) := Ops { eq : T -> T -> bool; ne : T -> T -> bool; lt : T -> T -> bool; le : T -> T -> bool;
                               gt : T -> T -> bool; ge : T -> T -> bool }.
Arguments eq {T} o. Arguments ne {T} o. Arguments lt {T} o. Arguments le {T} o. Arguments gt {T} o. Arguments ge {T} o.

Section Pair.
  Context {R S : Type} (r : ops R) (s : ops S).
  (** pair.cfa:17-19 *)
  Definition plt (p q : R * S) : bool := lt r (fst p) (fst q) || (eq r (fst p) (fst q) && lt s (snd p) (snd q)).
  (** pair.cfa:23-25 *)
  Definition ple (p q : R * S) : bool := lt r (fst p) (fst q) || (eq r (fst p) (fst q) && le s (snd p) (snd q)).
  (** pair.cfa:28-30 *)
  Definition peq (p q : R * S) : bool := eq r (fst p) (fst q) && eq s (snd p) (snd q).
  (** pair.cfa:33-35 *)
  Definition pne (p q : R * S) : bool := ne r (fst p) (fst q) || ne s (snd p) (snd q).
  (** pair.cfa:39-41 *)
  Definition pgt (p q : R * S) : bool := gt r (fst p) (fst q) || (eq r (fst p) (fst q) && gt s (snd p) (snd q)).
  (** pair.cfa:45-47 *)
  Definition pge (p q : R * S) : bool := gt r (fst p) (fst q) || (eq r (fst p) (fst q) && ge s (snd p) (snd q)).
  Definition pops : ops (R * S) := Ops _ peq pne plt ple pgt pge.
End Pair.

(** Life of a field: it must be constructed before it is assigned, read or destroyed, and destroyed before it is
    constructed again.  [None] is raw storage. *)
Inductive outcome (A : Type) := Done (a : A) | Refused | Fault.
Arguments Done {A} a. Arguments Refused {A}. Arguments Fault {A}.
Definition construct {V} (f : option V) (v : V) : outcome (option V) := match f with None => Done (Some v) | Some _ => Fault end.
Definition assign {V} (f : option V) (v : V) : outcome (option V) := match f with Some _ => Done (Some v) | None => Fault end.
Definition destroy {V} (f : option V) : outcome (option V) := match f with Some _ => Done None | None => Fault end.
Definition read {V} (f : option V) : outcome V := match f with Some v => Done v | None => Fault end.
Definition bind {A B} (m : outcome A) (k : A -> outcome B) : outcome B :=
  match m with Done a => k a | Refused => Refused | Fault => Fault end.

Section Maybe.
  Context {T : Type}.
  (** maybe.hfa:20-24; raw storage before the constructor *)
  Record maybe := Mb { has : bool; value : option T }.
  Definition mraw : maybe := Mb false None.
  (** maybe.cfa:22-24 *)
  Definition m_none (m : maybe) : outcome maybe := Done (Mb false (value m)).
  (** maybe.cfa:27-30 *)
  Definition m_value (m : maybe) (v : T) : outcome maybe := bind (construct (value m) v) (fun f => Done (Mb true f)).
  (** maybe.cfa:33-38 *)
  Definition m_copy (m o : maybe) : outcome maybe :=
    if has o then bind (read (value o)) (fun v => bind (construct (value m) v) (fun f => Done (Mb (has o) f)))
    else Done (Mb (has o) (value m)).
  (** maybe.cfa:41-52 *)
  Definition m_assign (m o : maybe) : outcome maybe :=
    if has m && has o then bind (read (value o)) (fun v => bind (assign (value m) v) (fun f => Done (Mb (has m) f)))
    else if has m then bind (destroy (value m)) (fun f => Done (Mb false f))
    else if has o then bind (read (value o)) (fun v => bind (construct (value m) v) (fun f => Done (Mb true f)))
    else Done m.
  (** maybe.cfa:55-59 *)
  Definition m_destroy (m : maybe) : outcome maybe :=
    if has m then bind (destroy (value m)) (fun f => Done (Mb (has m) f)) else Done m.
  (** maybe.cfa:82-85 *)
  Definition m_get (m : maybe) : outcome T := if negb (has m) then Refused else read (value m).
  (** maybe.cfa:88-95 *)
  Definition m_set (m : maybe) (v : T) : outcome maybe :=
    if has m then bind (assign (value m) v) (fun f => Done (Mb (has m) f))
    else bind (construct (value m) v) (fun f => Done (Mb true f)).
  (** maybe.cfa:98-103 *)
  Definition m_set_none (m : maybe) : outcome maybe :=
    if has m then bind (destroy (value m)) (fun f => Done (Mb false f)) else Done m.
End Maybe.
Arguments maybe T : clear implicits.

Section Result.
  Context {T E : Type}.
  (** result.hfa:21-31: the flag and a union of value and error, raw or holding one of them *)
  Record rslt := Rs { rhas : bool; ru : option (T + E) }.
  Definition rraw : rslt := Rs false None.
  Definition rd_v (u : option (T + E)) : outcome T := match u with Some (inl v) => Done v | _ => Fault end.
  Definition rd_e (u : option (T + E)) : outcome E := match u with Some (inr e) => Done e | _ => Fault end.
  Definition as_v (u : option (T + E)) (v : T) : outcome (option (T + E)) := bind (rd_v u) (fun _ => Done (Some (inl v))).
  Definition as_e (u : option (T + E)) (e : E) : outcome (option (T + E)) := bind (rd_e u) (fun _ => Done (Some (inr e))).
  Definition de_v (u : option (T + E)) : outcome (option (T + E)) := bind (rd_v u) (fun _ => Done None).
  Definition de_e (u : option (T + E)) : outcome (option (T + E)) := bind (rd_e u) (fun _ => Done None).
  (** result.cfa:22-37; the default error value is [e0] *)
  Definition r_default (e0 : E) (m : rslt) : outcome rslt := bind (construct (ru m) (inr e0)) (fun u => Done (Rs false u)).
  Definition r_value (m : rslt) (v : T) : outcome rslt := bind (construct (ru m) (inl v)) (fun u => Done (Rs true u)).
  Definition r_error (m : rslt) (e : E) : outcome rslt := bind (construct (ru m) (inr e)) (fun u => Done (Rs false u)).
  (** result.cfa:40-47 *)
  Definition r_copy (m o : rslt) : outcome rslt :=
    if rhas o then bind (rd_v (ru o)) (fun v => bind (construct (ru m) (inl v)) (fun u => Done (Rs (rhas o) u)))
    else bind (rd_e (ru o)) (fun e => bind (construct (ru m) (inr e)) (fun u => Done (Rs (rhas o) u))).
  (** result.cfa:50-64: the change of [this]; the routine has no return statement *)
  Definition r_assign (m o : rslt) : outcome rslt :=
    if rhas m && rhas o then bind (rd_v (ru o)) (fun v => bind (as_v (ru m) v) (fun u => Done (Rs (rhas m) u)))
    else if rhas m then
      bind (de_v (ru m)) (fun u => bind (rd_e (ru o)) (fun e => bind (construct u (inr e)) (fun u => Done (Rs false u))))
    else if rhas o then
      bind (de_e (ru m)) (fun u => bind (rd_v (ru o)) (fun v => bind (construct u (inl v)) (fun u => Done (Rs true u))))
    else bind (rd_e (ru o)) (fun e => bind (as_e (ru m) e) (fun u => Done (Rs (rhas m) u))).
  (** what [?=?] returns: falling off the end of the routine leaves the result undefined *)
  Definition r_assign_result (m o : rslt) : outcome rslt := Fault.
  (** result.cfa:67-73 *)
  Definition r_destroy (m : rslt) : outcome rslt :=
    bind (if rhas m then de_v (ru m) else de_e (ru m)) (fun u => Done (Rs (rhas m) u)).
  (** result.cfa:96-105 *)
  Definition r_get (m : rslt) : outcome T := if negb (rhas m) then Refused else rd_v (ru m).
  Definition r_get_error (m : rslt) : outcome E := if rhas m then Refused else rd_e (ru m).
  (** result.cfa:108-127 *)
  Definition r_set (m : rslt) (v : T) : outcome rslt :=
    if rhas m then bind (as_v (ru m) v) (fun u => Done (Rs (rhas m) u))
    else bind (de_e (ru m)) (fun u => bind (construct u (inl v)) (fun u => Done (Rs true u))).
  Definition r_set_error (m : rslt) (e : E) : outcome rslt :=
    if rhas m then bind (de_v (ru m)) (fun u => bind (construct u (inr e)) (fun u => Done (Rs false u)))
    else bind (as_e (ru m) e) (fun u => Done (Rs (rhas m) u)).
End Result.
Arguments rslt T E : clear implicits.

Section Common.
  Context {T : Type} (ltb : T -> T -> bool).
  (** common.hfa:71-77, 88-89 *)
  Definition min (v1 v2 : T) : T := if ltb v1 v2 then v1 else v2.
  (** common.hfa:79-85, 94-95 *)
  Definition max (v1 v2 : T) : T := if negb (ltb v1 v2) then v1 else v2.
  (** the variadic versions, common.hfa:91-92 and 97-98: at least two arguments *)
  Fixpoint minv (a b : T) (l : list T) : T := match l with [] => min a b | c :: r => min a (minv b c r) end.
  Fixpoint maxv (a b : T) (l : list T) : T := match l with [] => max a b | c :: r => max a (maxv b c r) end.
  (** common.hfa:100-101 *)
  Definition clamp (value min_val max_val : T) : T := max min_val (min value max_val).
  (** common.hfa:62-65 *)
  Definition abs (zero : T) (neg : T -> T) (v : T) : T := if ltb v zero then neg v else v.
End Common.
(** common.hfa:103-104, on a store *)
Definition swap {A V} (dec : A -> A -> bool) (st : A -> V) (p q : A) : A -> V :=
  let temp := st p in
  let st1 := fun x => if dec x p then st q else st x in
  fun x => if dec x q then temp else st1 x.
