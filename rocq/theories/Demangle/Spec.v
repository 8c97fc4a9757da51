(** What demangling is meant to give back. *)
From Coq Require Import Ascii String List Bool Arith.
From Verif.Mangle Require Import Model Spec.
Import ListNotations.
Open Scope string_scope.
Open Scope list_scope.
(** types that contain no function type, no instance with parameters and no qualified type *)
Fixpoint flat (t : ty) : bool :=
  match t with
  | Void _ | VarArgs _ | Zero _ | One _ => true
  | Basic _ k => Nat.ltb k 36
  | Ptr _ b | Arr _ _ b => flat b
  | Ref q b => negb (is_mutex q) && flat b
  | Inst _ _ n ps => name_ok n && none ps
  | Tuple _ ts => forallb flat ts
  | Fun _ _ _ _ | Qual _ _ => false
  end.
(** such a type, or a function with at most one result over such types and no assertions *)
Definition simple (t : ty) : bool :=
  match t with
  | Fun fa asr rs ps => none asr && Nat.leb (length rs) 1 && forallb flat rs && forallb flat ps
  | _ => flat t
  end.
Definition binders (t : ty) : list (str * kind) := match t with Fun fa _ _ _ => fa | _ => [] end.
Definition nobind (t : ty) : ty := match t with Fun _ asr rs ps => Fun [] asr rs ps | _ => t end.
(** the name the demangler uses for the variables of a kind *)
Definition shown (k : kind) : str := match k with Dtype => #"DT0" | Ftype => #"FT0" | Ttype => #"TT0" end.
Definition show_vars (fa : list (str * kind)) (n : str) : str := match vfind (rev fa) n with Some k => shown k | None => n end.
(** The type that demangling is to give: the qualifiers of parameters and results other than mutex, references, dimensions and forall clauses do not appear in the name. r renames type instances. *)
Definition cut (inf : bool) (q : quals) : quals := if inf then Q false false false (is_mutex q) else q.
Fixpoint seen (r : str -> str) (inf : bool) (t : ty) : ty :=
  match t with
  | Void q => Void (cut inf q)
  | Basic q k => Basic (cut inf q) k
  | Ptr q b => Ptr (cut inf q) (seen r false b)
  | Arr q _ b => Arr (cut inf q) 0 (seen r false b)
  | Ref _ b => seen r false b
  | Fun _ _ rs ps => Fun [] [] (match rs with [] => [Void noq] | _ => map (seen r true) rs end) (map (seen r true) ps)
  | Inst k q n ps => Inst k (cut inf q) (match k with TypeI => r n | _ => n end) (map (seen r false) ps)
  | Tuple q ts => Tuple (cut inf q) (map (seen r false) ts)
  | VarArgs q => Inst TypeI (cut inf q) #"__builtin_va_list" []
  | Zero _ => Zero noq
  | One _ => One noq
  | Qual p c => Qual (seen r inf p) (seen r inf c)
  end.
(** no references *)
Fixpoint noref (t : ty) : bool :=
  match t with
  | Ref _ _ => false
  | Ptr _ b | Arr _ _ b => noref b
  | Fun _ _ rs ps => forallb noref rs && forallb noref ps
  | Inst _ _ _ ps => forallb noref ps
  | Tuple _ ts => forallb noref ts
  | Qual p c => noref p && noref c
  | _ => true
  end.
(** names of source declarations: operators of the table, or identifiers that are not an operator's output name *)
Definition source_name (n : str) : Prop :=
  (exists a, In a (map fst ops) /\ n = #a) \/ (name_ok n = true /\ existsb (Ascii.eqb (ch "?")) n = false /\ forall b, In b (map snd ops) -> n <> #b).
