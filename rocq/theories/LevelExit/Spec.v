(** What the branches mean. *)
From Coq Require Import ZArith List Bool Arith.
From Verif.LevelExit Require Import Model.
Import ListNotations.
(** how statements end: Go: they go on; Ex b: with a branch to something around *)
Inductive res := Go | Ex (b : branch).
(** a break that leaves the statement with the labels ls *)
Definition leaves (ls : list lab) (r : res) : res := match r with Ex (B (Some l)) => if has l ls then Go else r | _ => r end.
Section S.
Context {st : Type}.
Variable acts : nat -> st -> st.
Variable tests : nat -> st -> bool.
Variable vals : nat -> st -> Z.
(** the clauses of a switch from the selected one; skip: on the way to the default clause; f: the statements of a clause *)
Definition clauses (f : list stmt -> st -> option (res * st)) : bool -> list (option Z * list stmt) -> st -> option (res * st) :=
  fix go skip cases x := match cases with
  | [] => Some (if skip then Ex FD else Go, x)
  | (v, b) :: r =>
      if skip && match v with None => false | Some _ => true end then go true r x else
      match f b x with
      | None => None
      | Some (Go, x1) | Some (Ex F, x1) => go false r x1
      | Some (Ex FD, x1) => go true r x1
      | Some (Ex b, x1) => Some (Ex b, x1)
      end
  end.
(** what is left of a branch out of the body of a loop: Some Go: the loop is left *)
Definition ends_loop (ls : list lab) (r : res) : option res :=
  match r with
  | Go | Ex (K None) => None
  | Ex (B None) => Some Go
  | Ex (K (Some l)) => if has l ls then None else Some r
  | Ex (B (Some l)) => if has l ls then Some Go else Some r
  | Ex _ => Some r
  end.
Fixpoint srun (n : nat) (kids : list stmt) (x : st) : option (res * st) :=
  match n with
  | O => None
  | S n =>
    match kids with
    | [] => Some (Go, x)
    | k :: rest =>
        match
          match k with
          | Act a => Some (Go, acts a x)
          | Br b => Some (Ex b, x)
          | Block ls ks => match srun n ks x with Some (r, x1) => Some (leaves ls r, x1) | None => None end
          | If ls c t e =>
              match (if tests c x then srun n [t] x else match e with Some e => srun n [e] x | None => Some (Go, x) end) with Some (r, x1) => Some (leaves ls r, x1) | None => None end
          | Loop ls isdo c inc b e =>
              if isdo || tests c x then
                match srun n [b] x with
                | None => None
                | Some (r, x1) => match ends_loop ls r with None => srun n [Loop ls false c inc b e] (step_inc acts inc x1) | Some r' => Some (r', x1) end
                end
              else match e with Some e => srun n [e] x | None => Some (Go, x) end
          | Switch ls c cases =>
              match clauses (srun n) false (select (vals c x) cases) x with
              | Some (Ex (B None), x1) => Some (Go, x1)
              | Some (r, x1) => Some (leaves ls r, x1)
              | None => None
              end
          end
        with
        | None => None
        | Some (Go, x1) => srun n rest x1
        | r => r
        end
    end
  end.
End S.
(** the bodies of loops and if statements are blocks without labels (the parser makes blocks of other statements); all through a statement *)
Definition plain (x : stmt) : bool := match x with Block [] _ => true | _ => false end.
Fixpoint wf (x : stmt) : bool :=
  match x with
  | Act _ | Br _ => true
  | Block _ kids => forallb wf kids
  | If _ _ t e => plain t && wf t && match e with Some e => plain e && wf e | None => true end
  | Loop _ _ _ _ b e => plain b && wf b && match e with Some e => plain e && wf e | None => true end
  | Switch _ _ cases => forallb (fun c => forallb wf (snd c)) cases
  end.
(** at most one default clause in each switch *)
Definition defaults {A} (cases : list (option Z * A)) : nat := length (filter (fun z => match fst z with None => true | Some _ => false end) cases).
Fixpoint one_default (x : stmt) : bool :=
  match x with
  | Act _ | Br _ => true
  | Block _ kids => forallb one_default kids
  | If _ _ t e => one_default t && match e with Some e => one_default e | None => true end
  | Loop _ _ _ _ b e => one_default b && match e with Some e => one_default e | None => true end
  | Switch _ _ cases => (defaults cases <=? 1) && forallb (fun c => forallb one_default (snd c)) cases
  end.
(** the labels and the gotos of C code *)
Fixpoint labels (c : code) : list nat :=
  match c with
  | CLab l => [l]
  | CAct _ | CGoto _ => []
  | CBlk cs => flat_map labels cs
  | CIf _ t e => labels t ++ match e with Some e => labels e | None => [] end
  | CLoop _ _ _ b e => labels b ++ match e with Some e => labels e | None => [] end
  | CSwitch _ cases => flat_map (fun z => flat_map labels (snd z)) cases
  end.
Fixpoint gotos (c : code) : list nat :=
  match c with
  | CGoto l => [l]
  | CAct _ | CLab _ => []
  | CBlk cs => flat_map gotos cs
  | CIf _ t e => gotos t ++ match e with Some e => gotos e | None => [] end
  | CLoop _ _ _ b e => gotos b ++ match e with Some e => gotos e | None => [] end
  | CSwitch _ cases => flat_map (fun z => flat_map gotos (snd z)) cases
  end.
(** where branches may be: in a loop; in a loop or a switch; in a clause; in a clause before the default clause of the innermost switch; the labels that breaks and continues may name *)
Record ctx := Cx { in_loop : bool; in_break : bool; in_case : bool; before_default : bool; breaks : list lab; continues : list lab }.
Definition top : ctx := Cx false false false false [] [].
Definition legal_branch (c : ctx) (b : branch) : bool :=
  match b with
  | B None => in_break c
  | B (Some l) => has l (breaks c)
  | K None => in_loop c
  | K (Some l) => has l (continues c)
  | F => in_case c
  | FD => before_default c
  end.
(** without the names of inner statements *)
Definition hide (ls m : list lab) : list lab := filter (fun l => negb (has l ls)) m.
Definition in_block (ls : list lab) (c : ctx) : ctx := Cx (in_loop c) (in_break c) (in_case c) (before_default c) (ls ++ breaks c) (hide ls (continues c)).
Definition in_body (ls : list lab) (c : ctx) : ctx := Cx true true (in_case c) (before_default c) (ls ++ breaks c) (ls ++ continues c).
Definition in_clause (ls : list lab) (before : bool) (c : ctx) : ctx := Cx (in_loop c) true true before (ls ++ breaks c) (hide ls (continues c)).
(** before: the default clause is to come *)
Definition legal_clauses (f : bool -> list stmt -> bool) : bool -> list (option Z * list stmt) -> bool :=
  fix go before cases := match cases with [] => true | (v, b) :: r => let before := before && match v with None => false | Some _ => true end in f before b && go before r end.
Fixpoint legal (x : stmt) (c : ctx) : bool :=
  match x with
  | Act _ => true
  | Br b => legal_branch c b
  | Block ls kids => forallb (fun y => legal y (in_block ls c)) kids
  | If ls _ t e => legal t (in_block ls c) && match e with Some e => legal e (in_block ls c) | None => true end
  | Loop ls _ _ _ b e => legal b (in_body ls c) && match e with Some e => legal e c | None => true end
  | Switch ls _ cases => legal_clauses (fun before kids => forallb (fun y => legal y (in_clause ls before c)) kids) (1 <=? defaults cases) cases
  end.
