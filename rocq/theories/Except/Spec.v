(** What exceptions are to do, without contexts, nodes and unwinding. *)
From Coq Require Import List Bool Arith.
From Verif.Except Require Import Model.
Import ListNotations.
(** a clause is for the exceptions of its type and of the types derived from it *)
Definition takes (e : exn) (p : pat) : Prop := List.In (fst p) (ty e) /\ snd p e = true.
Definition clauses (k : kind) (hs : list (kind * pat * stmt)) : list (pat * stmt) := concat (map (fun h => match fst (fst h), k with Term, Term | Res, Res => [(snd (fst h), snd h)] | _, _ => [] end) hs).
Definition pick (e : exn) (hs : list (pat * stmt)) : option stmt := option_map snd (find (fun h => fits e (fst h)) hs).
Definition caught (e : exn) (ts : list (list pat)) : bool := existsb (existsb (fits e)) ts.
(** how a statement ends: Raise: with an exception for somebody outside; Decl: a catchResume clause passes the exception on; Fail: nobody catches the exception, the program is over *)
Inductive sout := Done | Decl | Raise (e : exn) | Fail (e : exn).
(** The evaluation. rs: the catchResume clauses around, the innermost try first; ts: the catch clauses around (of all try statements that have been entered and not left); cx: the exception of the catch clause around. The result: how the statement ends, what was seen, and whether an exception on its way was superseded by one that came out of a finally clause. *)
Fixpoint sev (n : nat) (P : nat -> stmt) (rs : list (list (pat * stmt))) (ts : list (list pat)) (cx : option exn) (s : stmt) : option (sout * list ev * bool) :=
  match n with
  | O => None
  | S n =>
    match s with
    | Skip => Some (Done, [], false)
    | Out k => Some (Done, [Printed k], false)
    | Seq a b =>
        match sev n P rs ts cx a with
        | Some (Done, l1, x1) => match sev n P rs ts cx b with Some (o, l2, x2) => Some (o, l1 ++ l2, x1 || x2) | None => None end
        | r => r
        end
    | Throw e => Some (if caught e ts then Raise e else Fail e, [], false)
    | Rethrow => match cx with Some e => Some (if caught e ts then Raise e else Fail e, [], false) | None => None end
    | Reresume => Some (Decl, [], false)
    | Resume e =>
        (fix loop (l : list (list (pat * stmt))) : option (sout * list ev * bool) :=
           match l with
           | [] => Some (if caught e ts then Raise e else Fail e, [], false)
           | hs :: r =>
               match pick e hs with
               | None => loop r
               | Some h =>
                   match sev n P r ts None h with
                   | Some (Decl, l1, x1) => match loop r with Some (o, l2, x2) => Some (o, Handled e :: l1 ++ l2, x1 || x2) | None => None end
                   | Some (o, l1, x1) => Some (o, Handled e :: l1, x1)
                   | None => None
                   end
               end
           end) rs
    | Call f => sev n P rs ts None (P f)
    | Try b hs f =>
        let rhs := clauses Res hs in
        let ths := clauses Term hs in
        match sev n P (match rhs with [] => rs | _ => rhs :: rs end) (match ths with [] => ts | _ => map fst ths :: ts end) cx b with
        | None => None
        | Some (o, l1, x1) =>
            match (match o with
                   | Raise e => match pick e ths with
                       | Some h => match sev n P rs ts (Some e) h with Some (o2, l2, x2) => Some (o2, l1 ++ Caught (Some e) :: l2, x1 || x2) | None => None end
                       | None => Some (o, l1, x1)
                       end
                   | _ => Some (o, l1, x1)
                   end), f with
            | Some (Fail e, l, x), _ => Some (Fail e, l, x)
            | r, None => r
            | None, _ => None
            | Some (o, l, x), Some f =>
                match sev n P rs ts cx f with
                | Some (Done, l2, x2) => Some (o, l ++ l2, x || x2)
                | Some (o2, l2, x2) => Some (o2, l ++ l2, x || x2 || match o, o2 with Raise _, Raise _ => true | _, _ => false end)
                | None => None
                end
            end
        end
    end
  end.
(** The programs for which the compiler keeps its word: throw; does not stand in a try block that has catch clauses itself or in a finally clause (it may stand in the catch clauses there), and throwResume; neither. rt, rr: throw; and throwResume; are allowed here *)
Fixpoint ok (rt rr : bool) (s : stmt) : bool :=
  match s with
  | Seq a b => ok rt rr a && ok rt rr b
  | Rethrow => rt
  | Reresume => rr
  | Try b hs f =>
      (let t := match clauses Term hs with [] => true | _ => false end in ok (rt && t) (rr && t) b) &&
      (fix go (hs : list (kind * pat * stmt)) := match hs with [] => true | (Term, _, h) :: r => ok true false h && go r | (Res, _, h) :: r => ok false true h && go r end) hs &&
      match f with None => true | Some f => ok false false f end
  | _ => true
  end.
