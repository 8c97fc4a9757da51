(** when conditions of a waituntil statement: src/Concurrency/Waituntil.cpp:202-520 and 1206-1290, src/AST/Stmt.hpp:475-499.
    The passes over the tree of clauses that decide whether the statement is compiled as "all OR", and which initial status each clause gets so that clauses whose when condition
    is false disappear. The passes set fields of the nodes; here each returns the tree with the fields set. The generated nested ifs (genWhenStateConditions, 426-471) select, for each
    combination of the conditions, the assignments computed with whenState of the collected leaves equal to the conditions and of all other leaves true. else clauses are not modelled. *)
From Coq Require Import List Bool Arith.
Import ListNotations.
(** select.hfa:27-30 *)
Inductive status := UNSAT | SAT | RUN.
Inductive op := AND | OR.
(** ClauseNode: w = the clause has a when condition; amb = ambiguousWhen; coll = entered in ambigIdxs; coa = childOfAnd *)
Inductive tree :=
  | Leaf (w amb coll coa : bool)
  | Node (o : op) (amb : bool) (l r : tree).
(** what the parser builds (parser.yy:1824-1845) *)
Inductive src := Clause (w : bool) | And (l r : src) | Or (l r : src).
Fixpoint build (s : src) : tree :=
  match s with
  | Clause w => Leaf w false false false
  | And l r => Node AND false (build l) (build r)
  | Or l r => Node OR false (build l) (build r)
  end.
Definition amb (t : tree) : bool := match t with Leaf _ a _ _ => a | Node _ a _ _ => a end.
(** paintWhenTree with updateAmbiguousWhen, 202-250; aB and oB are the reference parameters andBelow and orBelow, returned as they are left *)
Fixpoint paint (t : tree) (aA oA aB oB : bool) : tree * (bool * bool) :=
  match t with
  | Leaf w a c d => (Leaf w (if w then true else a) c d, (aB, oB))
  | Node AND a l r =>
      let '(l1, (x1, y1)) := paint l true oA false false in
      let '(r1, (x2, y2)) := paint r true oA x1 y1 in
      (Node AND (if amb l1 && amb r1 then (oA || y2) && (x2 || true) else a) l1 r1, (true, y2))
  | Node OR a l r =>
      let '(l1, (x1, y1)) := paint l aA true false false in
      let '(r1, (x2, y2)) := paint r aA true x1 y1 in
      (Node OR (if amb l1 && amb r1 then (true || y2) && (x2 || aA) else a) l1 r1, (x2, true))
  end.
(** 253-257: the statement is compiled by genAllOr *)
Definition all_or (t : tree) : bool := negb (fst (snd (paint t false false false false))).
Definition painted (t : tree) : tree := fst (paint t false false false false).
(** collectWhens, 274-304 *)
Fixpoint collect (t : tree) (pamb pand : bool) : tree :=
  match t with
  | Leaf w a c d => Leaf w a (c || pamb) (d || (pand && w))
  | Node o a l r => let p := match o with AND => true | OR => false end in Node o a (collect l a p) (collect r a p)
  end.
(** leaves before the given node have lower clause indices *)
Fixpoint size (t : tree) : nat := match t with Leaf _ _ _ _ => 1 | Node _ _ l r => size l + size r end.
(** 1254-1284: if ( ! when_cond ) clause_statuses = __SELECT_RUN for children of AND *)
Fixpoint init (t : tree) (cond : nat -> bool) (i : nat) (j : nat) : status :=
  match t with
  | Leaf w _ _ d => if (j =? i) && d && negb (cond i) then RUN else UNSAT
  | Node _ _ l r => if j <? i + size l then init l cond i j else init r cond (i + size l) j
  end.
(** updateWhenState, 310-318 *)
Fixpoint ws (t : tree) (cond : nat -> bool) (i : nat) : bool :=
  match t with
  | Leaf _ _ c _ => if c then cond i else true
  | Node _ _ l r => if negb (ws l cond i) && negb (ws r cond (i + size l)) then false else true
  end.
(** genSubtreeAssign, 322-376: the assignments and the index after the subtree *)
Fixpoint sub (t : tree) (b : bool) (i : nat) : list (nat * status) * nat :=
  match t with
  | Leaf _ _ _ d => (if b && negb d then [(i, RUN)] else if negb b && d then [(i, UNSAT)] else [], i + 1)
  | Node o _ l r =>
      let '(x, i1) := sub l b i in
      let '(y, i2) := sub r b i1 in
      (if match o with AND => b | OR => negb b end then x ++ y else if length x <? length y then x else y, i2)
  end.
(** genStatusAssign, 378-423 *)
Fixpoint assign (t : tree) (cond : nat -> bool) (i : nat) : list (nat * status) * nat :=
  match t with
  | Leaf _ _ _ _ => ([], i + 1)
  | Node o _ l r =>
      let keep := match o with AND => true | OR => false end in
      if negb (ws l cond i) && negb (ws r cond (i + size l)) then sub t true i
      else if negb (ws l cond i) then let '(x, i1) := sub l keep i in let '(y, i2) := assign r cond i1 in (x ++ y, i2)
      else if negb (ws r cond (i + size l)) then let '(x, i1) := assign l cond i in let '(y, i2) := sub r keep i1 in (x ++ y, i2)
      else let '(x, i1) := assign l cond i in let '(y, i2) := assign r cond i1 in (x ++ y, i2)
  end.
Fixpoint perform (l : list (nat * status)) (f : nat -> status) : nat -> status :=
  match l with [] => f | (i, x) :: l => perform l (fun j => if j =? i then x else f j) end.
(** the tree after painting and collecting, and the statuses when registration begins (postvisit, 1206-1290) *)
Definition ready (s : src) : tree := collect (painted (build s)) false false.
Definition statuses (s : src) (cond : nat -> bool) : nat -> status := perform (fst (assign (ready s) cond 0)) (init (ready s) cond 0).
(** genPredExpr with genRunExpr, 475-520: __is_run_sat_ *)
Definition is_run (x : status) : bool := match x with RUN => true | _ => false end.
Fixpoint pred (t : tree) (f : nat -> status) (i : nat) : bool :=
  match t with
  | Leaf _ _ _ _ => is_run (f i)
  | Node AND _ l r => pred l f i && pred r f (i + size l)
  | Node OR _ l r => pred l f i || pred r f (i + size l)
  end.
Definition done (s : src) (f : nat -> status) : bool := pred (ready s) f 0.
