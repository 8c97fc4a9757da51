(** Multi-level exits: break, continue and fallthrough with and without labels, replaced by goto, src/ControlStruct/MultiLevelExit.cpp.
    Not modelled: goto and labels as its targets, fallthrough with a label (291-298, 471-481, 634-639), try statements and returns (509-581, 703-707), the attribute unused (211-239), and the second visit of loops with an else clause (686: by then the loop has no branches but goto, only unused labels are added). Errors are None. *)
From Coq Require Import ZArith List Bool Arith.
Import ListNotations.
Definition lab := nat.
(** branches: B: break, K: continue, F: fallthrough, FD: fallthrough default *)
Inductive branch := B (l : option lab) | K (l : option lab) | F | FD.
(** Statements. ls: the labels of a statement. Loop ls isdo c inc b e: while, do-while (isdo) and for (inc: the increment) with the else clause; Switch: the clauses with their value (None: default) and their statements *)
Inductive stmt := Act (n : nat) | Br (b : branch) | Block (ls : list lab) (kids : list stmt) | If (ls : list lab) (c : nat) (t : stmt) (e : option stmt)
  | Loop (ls : list lab) (isdo : bool) (c : nat) (inc : option nat) (b : stmt) (e : option stmt) | Switch (ls : list lab) (c : nat) (cases : list (option Z * list stmt)).
(** choose, build_switch, src/Parser/StatementNode.cpp:153-175: a break at the end of each clause; None: a case without statements, in a list of cases *)
Definition choose (ls : list lab) (c : nat) (cases : list (option Z * option (list stmt))) : stmt := Switch ls c (map (fun x => (fst x, match snd x with Some b => b ++ [Br (B None)] | None => [] end)) cases).
(** C code. CLab: a null statement with a label *)
Inductive code := CAct (n : nat) | CGoto (l : nat) | CLab (l : nat) | CBlk (cs : list code) | CIf (c : nat) (t : code) (e : option code)
  | CLoop (isdo : bool) (c : nat) (inc : option nat) (b : code) (e : option code) | CSwitch (c : nat) (cases : list (option Z * list code)).
(** Entry, MultiLevelExit.cpp:40-103: the kind, the labels of the statement, the targets, fallDefaultValid *)
Inductive kind := KLoop | KBlock | KCase | KSwitch.
Record entry := En { kd : kind; lbs : list lab; one : nat; two : option nat; fdok : bool }.
Definition has (l : lab) (ls : list lab) : bool := existsb (Nat.eqb l) ls.
Definition is_loop (e : entry) : bool := match kd e with KLoop => true | _ => false end.
Definition is_case (e : entry) : bool := match kd e with KCase => true | _ => false end.
Definition is_switch (e : entry) : bool := match kd e with KSwitch => true | _ => false end.
(** the target of a branch, MultiLevelExit.cpp:105-123 and 243-361; k: enclosing_control_structures, the innermost first *)
Definition target (k : list entry) (b : branch) : option nat :=
  match b with
  | B None => option_map one (find (fun e => is_loop e || is_switch e) k)
  | B (Some l) => match find (fun e => has l (lbs e)) k with Some e => if is_case e then None else Some (one e) | None => None end
  | K None => match find is_loop k with Some e => two e | None => None end
  | K (Some l) => match find (fun e => has l (lbs e)) k with Some e => if is_loop e then two e else None | None => None end
  | F => option_map one (find is_case k)
  | FD => match find is_switch k with Some e => if fdok e then two e else None | None => None end
  end.
(** The state of the pass: the next label (LabelGenerator.cpp:29-35), the labels that are used (58-61), break_label (154) *)
Record T := St { nxt : nat; used : list nat; brk : option nat }.
Definition use (l : nat) (s : T) : T := St (nxt s) (l :: used s) (brk s).
Definition take (s : T) : T := St (nxt s) (used s) None.
Definition set_brk (s : T) (l : option nat) : T := St (nxt s) (used s) l.
Definition more (s : T) : T := St (S (nxt s)) (used s) (brk s).
Definition is_used (l : nat) (s : T) : bool := existsb (Nat.eqb l) (used s).
Definition opt_lab (l : option nat) : list code := match l with Some l => [CLab l] | None => [] end.
(** fixBlock, MultiLevelExit.cpp:624-701 *)
Definition fix_block (f : stmt -> T -> option (code * T)) : list stmt -> T -> option (list code * T) :=
  fix go kids s := match kids with
  | [] => Some ([], s)
  | x :: r => match f x s with None => None | Some (c, s1) =>
      match go r (take s1) with None => None | Some (cs, s2) => Some (c :: opt_lab (brk s1) ++ cs, s2) end end
  end.
(** the clauses of a switch, MultiLevelExit.cpp:388-436; f: fixBlock for a stack of entries; sw: the entry of the switch *)
Definition fix_cases (f : list entry -> list stmt -> T -> option (list code * T)) : list (option Z * list stmt) -> entry -> list entry -> T -> option (list (option Z * list code) * T) :=
  fix go cases sw k s := match cases with
  | [] => Some ([], s)
  | (v, b) :: r =>
      let sw := match v with None => En (kd sw) (lbs sw) (one sw) (two sw) false | Some _ => sw end in
      let fl := nxt s in
      match f (En KCase [] fl None true :: sw :: k) b (more s) with None => None | Some (cs, s1) =>
        let body := CBlk cs :: (if is_used fl s1 then [CLab fl] else []) in
        let body := match v, two sw with None, Some fd => if is_used fd s1 then CLab fd :: body else body | _, _ => body end in
        match go r sw k s1 with None => None | Some (cs', s2) => Some ((v, body) :: cs', s2) end end
  end.
(** the label of breaks at the end of the last clause, 490-505 *)
Fixpoint add_last (l : nat) (cases : list (option Z * list code)) : list (option Z * list code) :=
  match cases with [] => [(None, [CLab l])] | [(v, b)] => [(v, b ++ [CLab l])] | x :: r => x :: add_last l r end.
Definition opt_tr (f : stmt -> T -> option (code * T)) (e : option stmt) (s : T) : option (option code * T) :=
  match e with None => Some (None, s) | Some e => match f e s with None => None | Some (c, s1) => Some (Some c, s1) end end.
(** the visit of a statement: blocks 186-209, branches 243-361, if 438-456, switch 462-507, loops 363-377 and 583-622, the else clause of loops 641-689 (it is visited outside of the loop) *)
Fixpoint tr (x : stmt) (k : list entry) (s : T) : option (code * T) :=
  match x with
  | Act n => Some (CAct n, s)
  | Br b => match target k b with Some l => Some (CGoto l, use l s) | None => None end
  | Block [] kids => match fix_block (fun y => tr y k) kids s with None => None | Some (cs, s1) => Some (CBlk cs, s1) end
  | Block ls kids =>
      let l := nxt s in
      match fix_block (fun y => tr y (En KBlock ls l None true :: k)) kids (more s) with None => None | Some (cs, s1) => Some (CBlk cs, set_brk s1 (Some l)) end
  | If [] c t e => match tr t k s with None => None | Some (t', s1) => match opt_tr (fun y => tr y k) e s1 with None => None | Some (e', s2) => Some (CIf c t' e', s2) end end
  | If ls c t e =>
      let l := nxt s in let k' := En KBlock ls l None true :: k in
      match tr t k' (more s) with None => None | Some (t', s1) => match opt_tr (fun y => tr y k') e s1 with None => None | Some (e', s2) => Some (CIf c t' e', set_brk s2 (Some l)) end end
  | Loop ls isdo c inc b e =>
      let lb := nxt s in let lc := S (nxt s) in
      match tr b (En KLoop ls lb (Some lc) true :: k) (more (more s)) with None => None | Some (b', s1) =>
        let br := if is_used lb s1 then Some lb else brk s1 in
        let b'' := if is_used lc s1 then CBlk [b'; CLab lc] else b' in
        match opt_tr (fun y => tr y k) e (take s1) with None => None | Some (e', s2) => Some (CLoop isdo c inc b'' e', set_brk s2 br) end end
  | Switch ls c cases =>
      let lb := nxt s in
      let fd := if existsb (fun x => match fst x with None => true | Some _ => false end) cases then Some (S (nxt s)) else None in
      match fix_cases (fun k' kids => fix_block (fun y => tr y k') kids) cases (En KSwitch ls lb fd true) k (more (more s)) with None => None | Some (cs, s1) =>
        Some (CSwitch c (if is_used lb s1 then add_last lb cs else cs), s1) end
  end.
(** multiLevelExitUpdate for the body of a function, 711-715 *)
Definition translate (kids : list stmt) : option code := match tr (Block [] kids) [] (St 0 [] None) with Some (c, _) => Some c | None => None end.
(** C: the meaning of the code. st: the state of the program; acts, tests, vals: what actions do, the values of conditions and of switch expressions. N: goes on; Goto l: a goto that has not reached its label, which is in a block around *)
Inductive out := N | Goto (l : nat).
Fixpoint after (l : nat) (cs : list code) : option (list code) :=
  match cs with [] => None | CLab m :: r => if l =? m then Some r else after l r | _ :: r => after l r end.
Section C.
Context {st : Type}.
Variable acts : nat -> st -> st.
Variable tests : nat -> st -> bool.
Variable vals : nat -> st -> Z.
Definition step_inc (i : option nat) (x : st) : st := match i with Some a => acts a x | None => x end.
(** the clauses from the one with the value, or from default *)
Definition is_val (v : Z) (o : option Z) : bool := match o with Some x => Z.eqb x v | None => false end.
Fixpoint from {A} (p : option Z -> bool) (cases : list (option Z * A)) : option (list (option Z * A)) :=
  match cases with [] => None | (o, a) :: r => if p o then Some cases else from p r end.
Definition select {A} (v : Z) (cases : list (option Z * A)) : list (option Z * A) :=
  match from (is_val v) cases with Some r => r | None => match from (fun o => match o with None => true | _ => false end) cases with Some r => r | None => [] end end.
(** all: the block; cs: the rest of it that is to be run *)
Fixpoint run (n : nat) (all cs : list code) (x : st) : option (out * st) :=
  match n with
  | O => None
  | S n =>
    match cs with
    | [] => Some (N, x)
    | c :: r =>
        match
          match c with
          | CAct a => Some (N, acts a x)
          | CGoto l => Some (Goto l, x)
          | CLab _ => Some (N, x)
          | CBlk cs => run n cs cs x
          | CIf c t e => if tests c x then run n [t] [t] x else match e with Some e => run n [e] [e] x | None => Some (N, x) end
          | CLoop isdo c inc b e =>
              if isdo || tests c x then
                match run n [b] [b] x with
                | Some (N, x1) => run n [CLoop false c inc b e] [CLoop false c inc b e] (step_inc inc x1)
                | y => y
                end
              else match e with Some e => run n [e] [e] x | None => Some (N, x) end
          | CSwitch c cases => run n (concat (map snd cases)) (concat (map snd (select (vals c x) cases))) x
          end
        with
        | None => None
        | Some (N, x1) => run n all r x1
        | Some (Goto l, x1) => match after l all with Some r' => run n all r' x1 | None => Some (Goto l, x1) end
        end
    end
  end.
End C.
