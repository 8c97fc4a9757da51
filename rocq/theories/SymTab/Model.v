(** The symbol table of the compiler: src/AST/SymbolTable.cpp, src/AST/SymbolTable.hpp.
    Persistent maps are functions and association lists (see PersistentMap/); the order of the entries of a mangle table stands for the unspecified order of its iteration. Tables that do not exist yet are empty.
    Not modelled: baseExpr, the statistics, the text of errors, addMembers (a sequence of with_id), reviseSpecialAsDeleted (524-543). Names and mangled names are numbers, 0 the empty name; mangling is that of the declaration (NoOverrideable for overrideable ones, 762-768). *)
From Coq Require Import List Bool Arith.
Import ListNotations.
(** What matters of a declaration with type: FunctionDecl or not, definition (675-683), linkage, for ?{}, ^?{} and ?=? the kind, the key of the first parameter without and with generic parameters (500-512), whether it is a copy function, the type *)
Record decl := D { d_id : nat; d_name : nat; d_mangle : nat; d_fn : bool; d_def : bool; d_over : bool; d_load : bool; d_intr : bool; d_spec : option (nat * nat * nat); d_copy : bool; d_type : nat }.
(** IdData, SymbolTable.hpp:40-59 *)
Record data := Data { who : decl; deleter : option nat; dscope : nat }.
Definition with_deleter (x : data) (w : nat) : data := Data (who x) (Some w) (dscope x).
Definition mtable := list (nat * data).
Fixpoint mfind (m : nat) (t : mtable) : option data := match t with [] => None | (k, v) :: r => if k =? m then Some v else mfind m r end.
Fixpoint mset (m : nat) (x : data) (t : mtable) : mtable := match t with [] => [(m, x)] | (k, v) :: r => if k =? m then (k, x) :: r else (k, v) :: mset m x r end.
Definition merase (m : nat) (t : mtable) : mtable := filter (fun e => negb (fst e =? m)) t.
(** The keys of idTable (by name) and specialFunctionTable (by kind and type) *)
Inductive key := KId (n : nat) | KSp (kind okey : nat).
Definition key_eqb (a b : key) : bool := match a, b with KId x, KId y => x =? y | KSp x u, KSp y v => (x =? y) && (u =? v) | _, _ => false end.
(** typeTable, structTable, enumTable, unionTable, traitTable *)
Inductive akind := AType | AStruct | AEnum | AUnion | ATrait.
Definition akind_eqb (a b : akind) : bool := match a, b with AType, AType | AStruct, AStruct | AEnum, AEnum | AUnion, AUnion | ATrait, ATrait => true | _, _ => false end.
(** full: with a body, of a NamedTypeDecl with a base *)
Record adecl := AD { a_id : nat; a_name : nat; a_full : bool; a_base : nat }.
Record tabs := T { ids : key -> mtable; aggs : akind -> nat -> option (adecl * nat) }.
Definition set_ids (t : tabs) (k : key) (m : mtable) : tabs := T (fun k' => if key_eqb k' k then m else ids t k') (aggs t).
Definition set_agg (t : tabs) (k : akind) (n : nat) (x : adecl * nat) : tabs := T (ids t) (fun k' n' => if akind_eqb k' k && (n' =? n) then Some x else aggs t k' n').
(** a table with its snapshot: prevScope, scope, repScope *)
Inductive symtab := ST (t : tabs) (scope rep : nat) (prev : option symtab).
Definition tables (s : symtab) : tabs := match s with ST t _ _ _ => t end.
Definition scope (s : symtab) : nat := match s with ST _ c _ _ => c end.
Definition rep (s : symtab) : nat := match s with ST _ _ r _ => r end.
Definition prev (s : symtab) : option symtab := match s with ST _ _ _ p => p end.
Definition empty : symtab := ST (T (fun _ => []) (fun _ _ => None)) 0 0 None.
(** 102-108 *)
Definition enter (s : symtab) : symtab := ST (tables s) (S (scope s)) (rep s) (prev s).
(** 110-117; None: there is no scope to leave *)
Definition leave (s : symtab) : option symtab :=
  if rep s =? scope s then match prev s with Some p => Some (ST (tables p) (pred (scope p)) (rep p) (prev p)) | None => None end
  else Some (ST (tables s) (pred (scope s)) (rep s) (prev s)).
(** 477-486 *)
Definition lazy_init (s : symtab) : symtab := if rep s =? scope s then s else ST (tables s) (scope s) (scope s) (Some s).
(** 488-496 *)
Fixpoint at_scope (target : nat) (s : symtab) : symtab := match s with ST _ _ r p => if r <=? target then s else match p with Some q => at_scope target q | None => s end end.
(** What an addition does: nothing, an error, or lazyInitScope and new tables *)
Inductive result := Same | Bad | Upd (t : tabs).
Section Add.
(** ign: the error mode is IgnoreErrors; compat: typesCompatible *)
Variable ign : bool.
Variable compat : nat -> nat -> bool.
(** addedTypeConflicts and addedDeclConflicts, 288-313: false, true, or an error *)
Definition agg_conflicts (k : akind) (existing added : adecl) : option bool :=
  if negb (a_full existing) then Some false
  else match k with
       | AType => if negb (a_full added) then Some true else if compat (a_base existing) (a_base added) then Some true else if ign then Some true else None
       | _ => if a_full added then if ign then Some true else None else Some true
       end.
(** addType, addStruct, addEnum, addUnion, addTrait, 315-416 *)
Definition add_agg (k : akind) (a : adecl) (t : tabs) (sc : nat) : result :=
  let set := Upd (set_agg t k (a_name a) (a, sc)) in
  match aggs t k (a_name a) with
  | Some (e, s) => if s =? sc then match agg_conflicts k e a with Some true => Same | Some false => set | None => Bad end else set
  | None => set
  end.
(** hasCompatibleCDecl, hasIncompatibleCDecl, 855-887 *)
Definition has_cdecl (same : bool) (t : tabs) (name mangle sc : nat) : bool :=
  existsb (fun e => (dscope (snd e) =? sc) && negb (d_load (who (snd e))) && (if same then fst e =? mangle else negb (fst e =? mangle))) (ids t (KId name)).
(** addedIdConflicts, 686-732; del: conflicts set the deleter of the earlier one (OnConflict::Delete) *)
Definition id_conflicts (existing : data) (added : decl) (del : bool) (deleted : option nat) : option bool :=
  let err := if del then Some true else if ign then Some true else None in
  if d_over (who existing) then Some false
  else if d_load (who existing) || compat (d_type added) (d_type (who existing)) then
    match deleted, deleter existing with
    | Some _, None | None, Some _ => err
    | _, _ => if d_def added && d_def (who existing) then err else Some true
    end
  else err.
(** getFunctionForOtype, 516-521 *)
Definition for_otype (x : data) (exact : nat) : bool := d_fn (who x) && match d_spec (who x) with Some (_, _, e) => e =? exact | None => false end.
Definition user (x : decl) : bool := negb (d_over x).
(** removeSpecialOverrides, 545-664. The loop of a user-defined copy function, 574-597: None returns early *)
Fixpoint scan_copy (exact : nat) (l : mtable) (removed : list nat) (deleted : mtable) (already : bool) : option (list nat * mtable * bool) :=
  match l with
  | [] => Some (removed, deleted, already)
  | (m, x) :: r =>
      if negb (for_otype x exact) then scan_copy exact r removed deleted already
      else if user (who x) then if d_copy (who x) then None else scan_copy exact r removed deleted true
      else if d_copy (who x) then scan_copy exact r (removed ++ [m]) deleted already
      else if negb already then scan_copy exact r removed (deleted ++ [(m, x)]) already
      else scan_copy exact r removed deleted already
  end.
(** the loop of another user-defined function, 613-630 *)
Fixpoint scan_user (exact : nat) (l deleted : mtable) : option mtable :=
  match l with
  | [] => Some deleted
  | (m, x) :: r =>
      if negb (for_otype x exact) then scan_user exact r deleted
      else if user (who x) then None
      else if d_intr (who x) then scan_user exact r deleted
      else if d_copy (who x) then scan_user exact r deleted
      else scan_user exact r (deleted ++ [(m, x)])
  end.
(** the loop of a generated function, 641-659: Some None: not to be added; Some (Some w): deleted by w; None: nothing *)
Fixpoint scan_gen (exact : nat) (copy : bool) (l : mtable) : option (option nat) :=
  match l with
  | [] => None
  | (m, x) :: r =>
      if negb (for_otype x exact) then scan_gen exact copy r
      else if negb (user (who x)) then scan_gen exact copy r
      else if copy then if d_copy (who x) then Some None else scan_gen exact copy r
      else Some (Some (d_id (who x)))
  end.
Definition delete_all (w : nat) (deleted t : mtable) : mtable := fold_left (fun t e => mset (fst e) (with_deleter (snd e) w) t) deleted t.
Definition remove_special (x : data) (t : mtable) : option (data * mtable) :=
  let d := who x in
  match d_spec d with
  | Some (_, _, exact) =>
      if negb (d_fn d) then Some (x, t)
      else if user d && d_copy d then
        match scan_copy exact t [] [] false with
        | None => Some (x, t)
        | Some (removed, deleted, already) =>
            let t := fold_left (fun t m => merase m t) removed t in
            Some (x, if negb already then delete_all (d_id d) deleted t else t)
        end
      else if user d then
        match scan_user exact t [] with
        | None => Some (x, t)
        | Some deleted => Some (x, delete_all (d_id d) deleted t)
        end
      else if negb (d_intr d) then
        match scan_gen exact (d_copy d) t with
        | None => Some (x, t)
        | Some None => None
        | Some (Some w) => Some (Data d (Some w) (dscope x), t)
        end
      else Some (x, t)
  | None => Some (x, t)
  end.
Definition key_of (d : decl) : key := match d_spec d with Some (k, o, _) => KSp k o | None => KId (d_name d) end.
(** addIdToTable, 753-828, with the key of addIdCommon, 734-751; w: the deleter of OnConflict::Delete, None for OnConflict::Error; del: the deletion of the declaration itself *)
Definition add_id (d : decl) (w del : option nat) (t : tabs) (sc : nat) : result :=
  if d_name d =? 0 then Same
  else if negb ign && has_cdecl (d_load d) t (d_name d) (d_mangle d) sc then Bad
  else
    let k := key_of d in
    let mt := ids t k in
    let add :=
      match (match k with KSp _ _ => remove_special (Data d del sc) mt | KId _ => Some (Data d del sc, mt) end) with
      | None => Upd t
      | Some (x, mt') => Upd (set_ids t k (mset (d_mangle d) x mt'))
      end in
    match mfind (d_mangle d) mt with
    | Some e =>
        if dscope e =? sc then
          match id_conflicts e d (match w with Some _ => true | None => false end) del with
          | None => Bad
          | Some false => add
          | Some true => match w with Some w => Upd (set_ids t k (mset (d_mangle d) (with_deleter e w) mt)) | None => Same end
          end
        else add
    | None => add
    end.
(** The operations: enterScope, leaveScope, addId and addDeletedId (278-286), the identifiers of addWith, the others *)
Inductive op := Enter | Leave | AddId (d : decl) (del : option nat) | WithId (d : decl) (w : nat) | AddAgg (k : akind) (a : adecl).
Definition change (o : op) (t : tabs) (sc : nat) : result :=
  match o with AddId d del => add_id d None del t sc | WithId d w => add_id d (Some w) None t sc | AddAgg k a => add_agg k a t sc | _ => Same end.
Definition step (o : op) (s : symtab) : option symtab :=
  match o with
  | Enter => Some (enter s)
  | Leave => leave s
  | _ => match change o (tables s) (scope s) with
         | Same => Some s
         | Bad => None
         | Upd t => let s' := lazy_init s in Some (ST t (scope s') (rep s') (prev s'))
         end
  end.
Fixpoint run (l : list op) (s : symtab) : option symtab := match l with [] => Some s | o :: r => match step o s with Some s' => run r s' | None => None end end.
End Add.
(** lookupId (126-158, without the special names), specialLookupId with a key (205-214), lookupType and the others *)
Definition lookup_id (s : symtab) (k : key) : list data := map snd (ids (tables s) k).
Definition lookup_agg (s : symtab) (k : akind) (n : nat) : option adecl := option_map fst (aggs (tables s) k n).
(** globalLookupType and the others, 262-276 *)
Definition global_agg (s : symtab) (k : akind) (n : nat) : option adecl := lookup_agg (at_scope 0 s) k n.
