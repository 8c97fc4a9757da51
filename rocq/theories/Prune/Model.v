(** Pruning of the candidates of an expression to the cheapest one per type: src/ResolvExpr/CandidateFinder.cpp:68-81,1886-1998,2054-2075.
    Types are given by their mangled names, the names by numbers; the results of satisfyAssertions are given with each candidate. Costs are those of Verif.Cost.
    Not modelled: the substitution of the type variables in the results, the texts of the errors. *)
From Coq Require Import ZArith List Bool Arith.
From Verif Require Import Cost.Model.
Import ListNotations.
(** a candidate; deleted: its expression uses a deleted identifier *)
Record cand := C { cid : nat; key : nat; cost : Z; cvt : Z; deleted : bool }.
(** a candidate before its assertions are satisfied, and the candidates that satisfyAssertions makes of it (itself if it needs nothing) *)
Record pre := P { pcand : cand; sats : list cand }.
(** findMinCost, 68-81 *)
Definition min_step (acc : Z * list cand) (r : cand) : Z * list cand :=
  let (m, out) := acc in
  if ltb (cost r) m then (cost r, [r]) else if eqb (cost r) m then (m, out ++ [r]) else (m, out).
Definition findMinCost (l : list cand) : list cand := snd (fold_left min_step l (infinity, [])).
(** the map selected: candidate and ambiguous *)
Notation sel := (nat -> option (cand * bool)).
Definition put (s : sel) (k : nat) (x : cand * bool) : sel := fun j => if Nat.eqb j k then Some x else s j.
(** the inner loop, 1932-1979 *)
Definition add_sat (s : sel) (n : cand) : sel :=
  match s (key n) with
  | Some (c, a) =>
      if ltb (cost n) (cost c) || (eqb (cost n) (cost c) && ltb (cvt n) (cvt c)) then put s (key n) (n, false)
      else if eqb (cost n) (cost c) && eqb (cvt n) (cvt c) then
        if deleted n then s else if deleted c then put s (key n) (n, false) else put s (key n) (c, true)
      else s
  | None => put s (key n) (n, false)
  end.
(** the outer loop, 1899-1980; the candidates come sorted by cost *)
Definition add_pre (s : sel) (p : pre) : sel :=
  let go := fold_left add_sat (sats p) s in
  match s (key (pcand p)) with
  | Some (c, _) => if ltb (cost c) (cost (pcand p)) then s else go
  | None => go
  end.
Definition select (l : list pre) : sel := fold_left add_pre l (fun _ => None).
(** 1983-1994: the candidate reported for a type *)
Definition report (s : sel) (k : nat) : option cand := match s k with Some (c, false) => Some c | _ => None end.
(** 2058-2067: no candidate is reported but some type was selected: the alternatives named in the error *)
Definition named (l : list pre) : list cand := findMinCost (map pcand l).
