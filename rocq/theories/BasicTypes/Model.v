(** The conversions between the basic types: the program that computes the tables, src/BasicTypes-gen.cpp:56-224,254-271,347-360, and what reads them, src/ResolvExpr/ConversionCost.cpp:311-320,463-510. *)
From Coq Require Import List Bool Arith ZArith Permutation.
From Verif.Cost Require Model.
Import ListNotations.
Open Scope Z_scope.
(** NumSort, BasicTypes-gen.cpp:56-60: a floating type is both signed and unsigned *)
Inductive sort := Signed | Unsigned | Floating.
Definition bits (s : sort) : Z := match s with Signed => 1 | Unsigned => 2 | Floating => 3 end.
(** Node, BasicTypes-gen.cpp:62-72, without the names; -1 is None *)
Record node := N { sg : sort; left : option nat; middle : option nat; right : option nat; rank : Z }.
Definition graph := list node.
Definition dummy : node := N Signed None None None 0.
Definition at_ (g : graph) (i : nat) : node := nth i g dummy.
(** the children visited, BasicTypes-gen.cpp:171-183: the first missing one ends the visit *)
Definition kids (n : node) : list nat :=
  match left n with
  | None => []
  | Some l => l :: match middle n with
                   | None => []
                   | Some m => m :: match right n with None => [] | Some r => [r] end
                   end
  end.
(** the cost of an edge, BasicTypes-gen.cpp:175,179,183 *)
Definition edge (g : graph) (a b : nat) : Z * Z :=
  (Z.max 1 (rank (at_ g b) - rank (at_ g a)), if Z.land (bits (sg (at_ g a))) (bits (sg (at_ g b))) =? 0 then 1 else 0).
Definition plus (x y : Z * Z) : Z * Z := (fst x + fst y, snd x + snd y).
(** el_cost, BasicTypes-gen.cpp:135-147: its operator< turns the order round, the top of the queue is an element with the least path, then the least sign *)
Definition el := (nat * (Z * Z))%type.
Definition before (x y : Z * Z) : bool := (fst y >? fst x) || ((fst y =? fst x) && (snd y >? snd x)).
(** a row of the two matrices being filled; seen[c] is set together with the entry, BasicTypes-gen.cpp:163-168, so None is both "not seen" and the -1 of lines 256-257 *)
Definition row := list (option (Z * Z)).
Fixpoint set {A} (i : nat) (x : A) (l : list A) : list A :=
  match l, i with [], _ => [] | _ :: r, O => x :: r | y :: r, S i => y :: set i x r end.
(** the queue and the row *)
Definition state := (list el * row)%type.
Definition start (g : graph) (r : nat) : state := ([(r, (0, 0))], repeat None (length g)).
(** one turn of the loop, BasicTypes-gen.cpp:154-184, with e the top of the queue and q the rest *)
Definition visit (g : graph) (e : el) (q : list el) (m : row) : state :=
  match nth (fst e) m None with
  | Some _ => (q, m)
  | None => (map (fun k => (k, plus (snd e) (edge g (fst e) k))) (kids (at_ g (fst e))) ++ q, set (fst e) (Some (snd e)) m)
  end.
(** the element on top: none comes before it. Which one of equal elements is on top is up to the library. *)
Inductive turn (g : graph) : state -> state -> Prop :=
  | turn_top e q q' m : Permutation q (e :: q') -> (forall x, In x q -> before (snd x) (snd e) = false) -> turn g (q, m) (visit g e q' m).
(** a queue that takes the first of the least elements, to run the program *)
Fixpoint top (e : el) (q : list el) : el * list el :=
  match q with
  | [] => (e, [])
  | x :: q => if before (snd x) (snd e) then let (t, r) := top x q in (t, e :: r) else let (t, r) := top e q in (t, x :: r)
  end.
Fixpoint loop (g : graph) (fuel : nat) (s : state) : option row :=
  match fst s with
  | [] => Some (snd s)
  | e :: q => match fuel with O => None | S f => let (t, r) := top e q in loop g f (visit g t r (snd s)) end
  end.
Definition costs (g : graph) (r : nat) : option row := loop g (3 * length g + 1) (start g r).
(** the two numbers printed, BasicTypes-gen.cpp:378,403 *)
Definition show (x : option (Z * Z)) : Z * Z := match x with Some p => p | None => (-1, -1) end.
Definition gen_row (g : graph) (r : nat) : list (Z * Z) := match costs g r with Some m => map show m | None => [] end.
Definition gen_cost (g : graph) : list (list Z) := map (fun r => map fst (gen_row g r)) (seq 0 (length g)).
Definition gen_sign (g : graph) : list (list Z) := map (fun r => map snd (gen_row g r)) (seq 0 (length g)).
Definition at2 {A} (d : A) (M : list (list A)) (i j : nat) : A := nth j (nth i M []) d.
(** generateCommonType, BasicTypes-gen.cpp:187-224. assert( "text" ) never fails, so a missing child is used as the index -1: Bad. Unset: the function ends without storing anything. *)
Inductive common := Kind (k : nat) | Unset | Bad.
Definition gen_common (g : graph) (M : list (list Z)) (r c : nat) : common :=
  let ok i j := 0 <=? at2 (-1) M i j in
  if ok r c then Kind c
  else if ok c r then Kind r
  else match left (at_ g c) with
       | None => Bad
       | Some i => if ok r i then Kind i else
         match middle (at_ g c) with
         | None => Bad
         | Some i => if ok r i then Kind i else
           match right (at_ g c) with
           | None => Bad
           | Some i => if ok r i then Kind i else Unset
           end
         end
       end.
(** the two loops of main, BasicTypes-gen.cpp:267-271: the entry (r,c) is computed for r <= c and stored twice *)
Definition gen_commons (g : graph) : list (list common) :=
  let M := gen_cost g in map (fun r => map (fun c => gen_common g M (Nat.min r c) (Nat.max r c)) (seq 0 (length g))) (seq 0 (length g)).
(** the loop that prints the hierarchy, BasicTypes-gen.cpp:347-360: the kinds on each line, and the indexes of graph read for their rank *)
Fixpoint hierarchy (g : graph) (fuel : nat) (c : nat) : list (list nat) * list nat :=
  match fuel with
  | O => ([], [])
  | S f =>
      if (length g <=? c)%nat then ([], [])
      else if negb (rank (at_ g c) =? rank (at_ g (c + 1)))
           then let (ls, rd) := hierarchy g f (c + 1) in ([c] :: ls, (c + 1)%nat :: rd)
           else if negb (rank (at_ g c) =? rank (at_ g (c + 2)))
                then let (ls, rd) := hierarchy g f (c + 2) in ([c; c + 1]%nat :: ls, (c + 1)%nat :: (c + 2)%nat :: rd)
                else let (ls, rd) := hierarchy g f (c + 3) in ([c; c + 1; c + 2]%nat :: ls, (c + 1)%nat :: (c + 2)%nat :: rd)
  end.
(** the graph, BasicTypes-gen.cpp:72-125; a kind is its place in the enumeration BasicKind, AST/BasicKind.hpp:22-58 *)
Definition the_graph : graph :=
  [N Signed (Some 1%nat) (Some 2%nat) None 0;
   N Signed (Some 2%nat) (Some 3%nat) (Some 4%nat) 1;
   N Signed (Some 3%nat) (Some 4%nat) None 1;
   N Unsigned (Some 5%nat) (Some 4%nat) None 1;
   N Signed (Some 5%nat) (Some 6%nat) None 2;
   N Unsigned (Some 7%nat) (Some 6%nat) None 2;
   N Signed (Some 7%nat) (Some 8%nat) None 3;
   N Unsigned (Some 9%nat) (Some 8%nat) None 3;
   N Signed (Some 9%nat) (Some 10%nat) None 4;
   N Unsigned (Some 10%nat) (Some 11%nat) None 4;
   N Signed (Some 11%nat) (Some 12%nat) None 5;
   N Unsigned (Some 12%nat) (Some 13%nat) None 5;
   N Signed (Some 13%nat) (Some 14%nat) None 6;
   N Unsigned (Some 14%nat) None None 6;
   N Floating (Some 16%nat) (Some 15%nat) None 7;
   N Floating (Some 17%nat) None None 8;
   N Floating (Some 18%nat) (Some 17%nat) None 9;
   N Floating (Some 19%nat) None None 10;
   N Floating (Some 20%nat) (Some 19%nat) None 11;
   N Floating (Some 21%nat) None None 12;
   N Floating (Some 22%nat) (Some 21%nat) None 13;
   N Floating (Some 23%nat) None None 14;
   N Floating (Some 24%nat) (Some 23%nat) None 15;
   N Floating (Some 25%nat) None None 16;
   N Floating (Some 26%nat) (Some 25%nat) None 17;
   N Floating (Some 27%nat) None None 18;
   N Floating (Some 28%nat) (Some 27%nat) None 19;
   N Floating (Some 30%nat) None None 20;
   N Floating (Some 29%nat) (Some 30%nat) None 21;
   N Floating (Some 31%nat) (Some 30%nat) None 22;
   N Floating (Some 33%nat) None None 23;
   N Floating (Some 32%nat) (Some 33%nat) None 24;
   N Floating (Some 34%nat) (Some 33%nat) None 25;
   N Floating (Some 35%nat) None None 26;
   N Floating (Some 35%nat) None None 27;
   N Floating None None None 28].
(** costMatrix, ConversionCost.cpp:73-111 *)
Definition costMatrix : list (list Z) :=
  [[0; 1; 1; 2; 2; 3; 3; 4; 4; 5; 5; 6; 6; 7; 7; 8; 9; 10; 11; 12; 13; 14; 15; 16; 17; 18; 19; 20; 21; 22; 23; 24; 25; 26; 27; 28];
   [(-1); 0; 1; 1; 1; 2; 2; 3; 3; 4; 4; 5; 5; 6; 6; 7; 8; 9; 10; 11; 12; 13; 14; 15; 16; 17; 18; 19; 20; 21; 22; 23; 24; 25; 26; 27];
   [(-1); (-1); 0; 1; 1; 2; 2; 3; 3; 4; 4; 5; 5; 6; 6; 7; 8; 9; 10; 11; 12; 13; 14; 15; 16; 17; 18; 19; 20; 21; 22; 23; 24; 25; 26; 27];
   [(-1); (-1); (-1); 0; 1; 1; 2; 2; 3; 3; 4; 4; 5; 5; 6; 7; 8; 9; 10; 11; 12; 13; 14; 15; 16; 17; 18; 19; 20; 21; 22; 23; 24; 25; 26; 27];
   [(-1); (-1); (-1); (-1); 0; 1; 1; 2; 2; 3; 3; 4; 4; 5; 5; 6; 7; 8; 9; 10; 11; 12; 13; 14; 15; 16; 17; 18; 19; 20; 21; 22; 23; 24; 25; 26];
   [(-1); (-1); (-1); (-1); (-1); 0; 1; 1; 2; 2; 3; 3; 4; 4; 5; 6; 7; 8; 9; 10; 11; 12; 13; 14; 15; 16; 17; 18; 19; 20; 21; 22; 23; 24; 25; 26];
   [(-1); (-1); (-1); (-1); (-1); (-1); 0; 1; 1; 2; 2; 3; 3; 4; 4; 5; 6; 7; 8; 9; 10; 11; 12; 13; 14; 15; 16; 17; 18; 19; 20; 21; 22; 23; 24; 25];
   [(-1); (-1); (-1); (-1); (-1); (-1); (-1); 0; 1; 1; 2; 2; 3; 3; 4; 5; 6; 7; 8; 9; 10; 11; 12; 13; 14; 15; 16; 17; 18; 19; 20; 21; 22; 23; 24; 25];
   [(-1); (-1); (-1); (-1); (-1); (-1); (-1); (-1); 0; 1; 1; 2; 2; 3; 3; 4; 5; 6; 7; 8; 9; 10; 11; 12; 13; 14; 15; 16; 17; 18; 19; 20; 21; 22; 23; 24];
   [(-1); (-1); (-1); (-1); (-1); (-1); (-1); (-1); (-1); 0; 1; 1; 2; 2; 3; 4; 5; 6; 7; 8; 9; 10; 11; 12; 13; 14; 15; 16; 17; 18; 19; 20; 21; 22; 23; 24];
   [(-1); (-1); (-1); (-1); (-1); (-1); (-1); (-1); (-1); (-1); 0; 1; 1; 2; 2; 3; 4; 5; 6; 7; 8; 9; 10; 11; 12; 13; 14; 15; 16; 17; 18; 19; 20; 21; 22; 23];
   [(-1); (-1); (-1); (-1); (-1); (-1); (-1); (-1); (-1); (-1); (-1); 0; 1; 1; 2; 3; 4; 5; 6; 7; 8; 9; 10; 11; 12; 13; 14; 15; 16; 17; 18; 19; 20; 21; 22; 23];
   [(-1); (-1); (-1); (-1); (-1); (-1); (-1); (-1); (-1); (-1); (-1); (-1); 0; 1; 1; 2; 3; 4; 5; 6; 7; 8; 9; 10; 11; 12; 13; 14; 15; 16; 17; 18; 19; 20; 21; 22];
   [(-1); (-1); (-1); (-1); (-1); (-1); (-1); (-1); (-1); (-1); (-1); (-1); (-1); 0; 1; 2; 3; 4; 5; 6; 7; 8; 9; 10; 11; 12; 13; 14; 15; 16; 17; 18; 19; 20; 21; 22];
   [(-1); (-1); (-1); (-1); (-1); (-1); (-1); (-1); (-1); (-1); (-1); (-1); (-1); (-1); 0; 1; 2; 3; 4; 5; 6; 7; 8; 9; 10; 11; 12; 13; 14; 15; 16; 17; 18; 19; 20; 21];
   [(-1); (-1); (-1); (-1); (-1); (-1); (-1); (-1); (-1); (-1); (-1); (-1); (-1); (-1); (-1); 0; (-1); 2; (-1); 4; (-1); 6; (-1); 8; (-1); 10; (-1); 12; (-1); (-1); 15; (-1); (-1); 18; (-1); 20];
   [(-1); (-1); (-1); (-1); (-1); (-1); (-1); (-1); (-1); (-1); (-1); (-1); (-1); (-1); (-1); (-1); 0; 1; 2; 3; 4; 5; 6; 7; 8; 9; 10; 11; 12; 13; 14; 15; 16; 17; 18; 19];
   [(-1); (-1); (-1); (-1); (-1); (-1); (-1); (-1); (-1); (-1); (-1); (-1); (-1); (-1); (-1); (-1); (-1); 0; (-1); 2; (-1); 4; (-1); 6; (-1); 8; (-1); 10; (-1); (-1); 13; (-1); (-1); 16; (-1); 18];
   [(-1); (-1); (-1); (-1); (-1); (-1); (-1); (-1); (-1); (-1); (-1); (-1); (-1); (-1); (-1); (-1); (-1); (-1); 0; 1; 2; 3; 4; 5; 6; 7; 8; 9; 10; 11; 12; 13; 14; 15; 16; 17];
   [(-1); (-1); (-1); (-1); (-1); (-1); (-1); (-1); (-1); (-1); (-1); (-1); (-1); (-1); (-1); (-1); (-1); (-1); (-1); 0; (-1); 2; (-1); 4; (-1); 6; (-1); 8; (-1); (-1); 11; (-1); (-1); 14; (-1); 16];
   [(-1); (-1); (-1); (-1); (-1); (-1); (-1); (-1); (-1); (-1); (-1); (-1); (-1); (-1); (-1); (-1); (-1); (-1); (-1); (-1); 0; 1; 2; 3; 4; 5; 6; 7; 8; 9; 10; 11; 12; 13; 14; 15];
   [(-1); (-1); (-1); (-1); (-1); (-1); (-1); (-1); (-1); (-1); (-1); (-1); (-1); (-1); (-1); (-1); (-1); (-1); (-1); (-1); (-1); 0; (-1); 2; (-1); 4; (-1); 6; (-1); (-1); 9; (-1); (-1); 12; (-1); 14];
   [(-1); (-1); (-1); (-1); (-1); (-1); (-1); (-1); (-1); (-1); (-1); (-1); (-1); (-1); (-1); (-1); (-1); (-1); (-1); (-1); (-1); (-1); 0; 1; 2; 3; 4; 5; 6; 7; 8; 9; 10; 11; 12; 13];
   [(-1); (-1); (-1); (-1); (-1); (-1); (-1); (-1); (-1); (-1); (-1); (-1); (-1); (-1); (-1); (-1); (-1); (-1); (-1); (-1); (-1); (-1); (-1); 0; (-1); 2; (-1); 4; (-1); (-1); 7; (-1); (-1); 10; (-1); 12];
   [(-1); (-1); (-1); (-1); (-1); (-1); (-1); (-1); (-1); (-1); (-1); (-1); (-1); (-1); (-1); (-1); (-1); (-1); (-1); (-1); (-1); (-1); (-1); (-1); 0; 1; 2; 3; 4; 5; 6; 7; 8; 9; 10; 11];
   [(-1); (-1); (-1); (-1); (-1); (-1); (-1); (-1); (-1); (-1); (-1); (-1); (-1); (-1); (-1); (-1); (-1); (-1); (-1); (-1); (-1); (-1); (-1); (-1); (-1); 0; (-1); 2; (-1); (-1); 5; (-1); (-1); 8; (-1); 10];
   [(-1); (-1); (-1); (-1); (-1); (-1); (-1); (-1); (-1); (-1); (-1); (-1); (-1); (-1); (-1); (-1); (-1); (-1); (-1); (-1); (-1); (-1); (-1); (-1); (-1); (-1); 0; 1; 2; 3; 4; 5; 6; 7; 8; 9];
   [(-1); (-1); (-1); (-1); (-1); (-1); (-1); (-1); (-1); (-1); (-1); (-1); (-1); (-1); (-1); (-1); (-1); (-1); (-1); (-1); (-1); (-1); (-1); (-1); (-1); (-1); (-1); 0; (-1); (-1); 3; (-1); (-1); 6; (-1); 8];
   [(-1); (-1); (-1); (-1); (-1); (-1); (-1); (-1); (-1); (-1); (-1); (-1); (-1); (-1); (-1); (-1); (-1); (-1); (-1); (-1); (-1); (-1); (-1); (-1); (-1); (-1); (-1); (-1); 0; 1; 2; 3; 4; 5; 6; 7];
   [(-1); (-1); (-1); (-1); (-1); (-1); (-1); (-1); (-1); (-1); (-1); (-1); (-1); (-1); (-1); (-1); (-1); (-1); (-1); (-1); (-1); (-1); (-1); (-1); (-1); (-1); (-1); (-1); (-1); 0; 1; 2; 3; 4; 5; 6];
   [(-1); (-1); (-1); (-1); (-1); (-1); (-1); (-1); (-1); (-1); (-1); (-1); (-1); (-1); (-1); (-1); (-1); (-1); (-1); (-1); (-1); (-1); (-1); (-1); (-1); (-1); (-1); (-1); (-1); (-1); 0; (-1); (-1); 3; (-1); 5];
   [(-1); (-1); (-1); (-1); (-1); (-1); (-1); (-1); (-1); (-1); (-1); (-1); (-1); (-1); (-1); (-1); (-1); (-1); (-1); (-1); (-1); (-1); (-1); (-1); (-1); (-1); (-1); (-1); (-1); (-1); (-1); 0; 1; 2; 3; 4];
   [(-1); (-1); (-1); (-1); (-1); (-1); (-1); (-1); (-1); (-1); (-1); (-1); (-1); (-1); (-1); (-1); (-1); (-1); (-1); (-1); (-1); (-1); (-1); (-1); (-1); (-1); (-1); (-1); (-1); (-1); (-1); (-1); 0; 1; 2; 3];
   [(-1); (-1); (-1); (-1); (-1); (-1); (-1); (-1); (-1); (-1); (-1); (-1); (-1); (-1); (-1); (-1); (-1); (-1); (-1); (-1); (-1); (-1); (-1); (-1); (-1); (-1); (-1); (-1); (-1); (-1); (-1); (-1); (-1); 0; (-1); 2];
   [(-1); (-1); (-1); (-1); (-1); (-1); (-1); (-1); (-1); (-1); (-1); (-1); (-1); (-1); (-1); (-1); (-1); (-1); (-1); (-1); (-1); (-1); (-1); (-1); (-1); (-1); (-1); (-1); (-1); (-1); (-1); (-1); (-1); (-1); 0; 1];
   [(-1); (-1); (-1); (-1); (-1); (-1); (-1); (-1); (-1); (-1); (-1); (-1); (-1); (-1); (-1); (-1); (-1); (-1); (-1); (-1); (-1); (-1); (-1); (-1); (-1); (-1); (-1); (-1); (-1); (-1); (-1); (-1); (-1); (-1); (-1); 0]].
(** ConversionCost.cpp:112 *)
Definition maxIntCost : Z := 25.
(** signMatrix, ConversionCost.cpp:121-159 *)
Definition signMatrix : list (list Z) :=
  [[0; 0; 0; 1; 0; 1; 0; 1; 0; 1; 0; 1; 0; 1; 0; 0; 0; 0; 0; 0; 0; 0; 0; 0; 0; 0; 0; 0; 0; 0; 0; 0; 0; 0; 0; 0];
   [(-1); 0; 0; 1; 0; 1; 0; 1; 0; 1; 0; 1; 0; 1; 0; 0; 0; 0; 0; 0; 0; 0; 0; 0; 0; 0; 0; 0; 0; 0; 0; 0; 0; 0; 0; 0];
   [(-1); (-1); 0; 1; 0; 1; 0; 1; 0; 1; 0; 1; 0; 1; 0; 0; 0; 0; 0; 0; 0; 0; 0; 0; 0; 0; 0; 0; 0; 0; 0; 0; 0; 0; 0; 0];
   [(-1); (-1); (-1); 0; 1; 0; 1; 0; 1; 0; 1; 0; 1; 0; 0; 0; 0; 0; 0; 0; 0; 0; 0; 0; 0; 0; 0; 0; 0; 0; 0; 0; 0; 0; 0; 0];
   [(-1); (-1); (-1); (-1); 0; 1; 0; 1; 0; 1; 0; 1; 0; 1; 0; 0; 0; 0; 0; 0; 0; 0; 0; 0; 0; 0; 0; 0; 0; 0; 0; 0; 0; 0; 0; 0];
   [(-1); (-1); (-1); (-1); (-1); 0; 1; 0; 1; 0; 1; 0; 1; 0; 0; 0; 0; 0; 0; 0; 0; 0; 0; 0; 0; 0; 0; 0; 0; 0; 0; 0; 0; 0; 0; 0];
   [(-1); (-1); (-1); (-1); (-1); (-1); 0; 1; 0; 1; 0; 1; 0; 1; 0; 0; 0; 0; 0; 0; 0; 0; 0; 0; 0; 0; 0; 0; 0; 0; 0; 0; 0; 0; 0; 0];
   [(-1); (-1); (-1); (-1); (-1); (-1); (-1); 0; 1; 0; 1; 0; 1; 0; 0; 0; 0; 0; 0; 0; 0; 0; 0; 0; 0; 0; 0; 0; 0; 0; 0; 0; 0; 0; 0; 0];
   [(-1); (-1); (-1); (-1); (-1); (-1); (-1); (-1); 0; 1; 0; 1; 0; 1; 0; 0; 0; 0; 0; 0; 0; 0; 0; 0; 0; 0; 0; 0; 0; 0; 0; 0; 0; 0; 0; 0];
   [(-1); (-1); (-1); (-1); (-1); (-1); (-1); (-1); (-1); 0; 1; 0; 1; 0; 0; 0; 0; 0; 0; 0; 0; 0; 0; 0; 0; 0; 0; 0; 0; 0; 0; 0; 0; 0; 0; 0];
   [(-1); (-1); (-1); (-1); (-1); (-1); (-1); (-1); (-1); (-1); 0; 1; 0; 1; 0; 0; 0; 0; 0; 0; 0; 0; 0; 0; 0; 0; 0; 0; 0; 0; 0; 0; 0; 0; 0; 0];
   [(-1); (-1); (-1); (-1); (-1); (-1); (-1); (-1); (-1); (-1); (-1); 0; 1; 0; 0; 0; 0; 0; 0; 0; 0; 0; 0; 0; 0; 0; 0; 0; 0; 0; 0; 0; 0; 0; 0; 0];
   [(-1); (-1); (-1); (-1); (-1); (-1); (-1); (-1); (-1); (-1); (-1); (-1); 0; 1; 0; 0; 0; 0; 0; 0; 0; 0; 0; 0; 0; 0; 0; 0; 0; 0; 0; 0; 0; 0; 0; 0];
   [(-1); (-1); (-1); (-1); (-1); (-1); (-1); (-1); (-1); (-1); (-1); (-1); (-1); 0; 0; 0; 0; 0; 0; 0; 0; 0; 0; 0; 0; 0; 0; 0; 0; 0; 0; 0; 0; 0; 0; 0];
   [(-1); (-1); (-1); (-1); (-1); (-1); (-1); (-1); (-1); (-1); (-1); (-1); (-1); (-1); 0; 0; 0; 0; 0; 0; 0; 0; 0; 0; 0; 0; 0; 0; 0; 0; 0; 0; 0; 0; 0; 0];
   [(-1); (-1); (-1); (-1); (-1); (-1); (-1); (-1); (-1); (-1); (-1); (-1); (-1); (-1); (-1); 0; (-1); 0; (-1); 0; (-1); 0; (-1); 0; (-1); 0; (-1); 0; (-1); (-1); 0; (-1); (-1); 0; (-1); 0];
   [(-1); (-1); (-1); (-1); (-1); (-1); (-1); (-1); (-1); (-1); (-1); (-1); (-1); (-1); (-1); (-1); 0; 0; 0; 0; 0; 0; 0; 0; 0; 0; 0; 0; 0; 0; 0; 0; 0; 0; 0; 0];
   [(-1); (-1); (-1); (-1); (-1); (-1); (-1); (-1); (-1); (-1); (-1); (-1); (-1); (-1); (-1); (-1); (-1); 0; (-1); 0; (-1); 0; (-1); 0; (-1); 0; (-1); 0; (-1); (-1); 0; (-1); (-1); 0; (-1); 0];
   [(-1); (-1); (-1); (-1); (-1); (-1); (-1); (-1); (-1); (-1); (-1); (-1); (-1); (-1); (-1); (-1); (-1); (-1); 0; 0; 0; 0; 0; 0; 0; 0; 0; 0; 0; 0; 0; 0; 0; 0; 0; 0];
   [(-1); (-1); (-1); (-1); (-1); (-1); (-1); (-1); (-1); (-1); (-1); (-1); (-1); (-1); (-1); (-1); (-1); (-1); (-1); 0; (-1); 0; (-1); 0; (-1); 0; (-1); 0; (-1); (-1); 0; (-1); (-1); 0; (-1); 0];
   [(-1); (-1); (-1); (-1); (-1); (-1); (-1); (-1); (-1); (-1); (-1); (-1); (-1); (-1); (-1); (-1); (-1); (-1); (-1); (-1); 0; 0; 0; 0; 0; 0; 0; 0; 0; 0; 0; 0; 0; 0; 0; 0];
   [(-1); (-1); (-1); (-1); (-1); (-1); (-1); (-1); (-1); (-1); (-1); (-1); (-1); (-1); (-1); (-1); (-1); (-1); (-1); (-1); (-1); 0; (-1); 0; (-1); 0; (-1); 0; (-1); (-1); 0; (-1); (-1); 0; (-1); 0];
   [(-1); (-1); (-1); (-1); (-1); (-1); (-1); (-1); (-1); (-1); (-1); (-1); (-1); (-1); (-1); (-1); (-1); (-1); (-1); (-1); (-1); (-1); 0; 0; 0; 0; 0; 0; 0; 0; 0; 0; 0; 0; 0; 0];
   [(-1); (-1); (-1); (-1); (-1); (-1); (-1); (-1); (-1); (-1); (-1); (-1); (-1); (-1); (-1); (-1); (-1); (-1); (-1); (-1); (-1); (-1); (-1); 0; (-1); 0; (-1); 0; (-1); (-1); 0; (-1); (-1); 0; (-1); 0];
   [(-1); (-1); (-1); (-1); (-1); (-1); (-1); (-1); (-1); (-1); (-1); (-1); (-1); (-1); (-1); (-1); (-1); (-1); (-1); (-1); (-1); (-1); (-1); (-1); 0; 0; 0; 0; 0; 0; 0; 0; 0; 0; 0; 0];
   [(-1); (-1); (-1); (-1); (-1); (-1); (-1); (-1); (-1); (-1); (-1); (-1); (-1); (-1); (-1); (-1); (-1); (-1); (-1); (-1); (-1); (-1); (-1); (-1); (-1); 0; (-1); 0; (-1); (-1); 0; (-1); (-1); 0; (-1); 0];
   [(-1); (-1); (-1); (-1); (-1); (-1); (-1); (-1); (-1); (-1); (-1); (-1); (-1); (-1); (-1); (-1); (-1); (-1); (-1); (-1); (-1); (-1); (-1); (-1); (-1); (-1); 0; 0; 0; 0; 0; 0; 0; 0; 0; 0];
   [(-1); (-1); (-1); (-1); (-1); (-1); (-1); (-1); (-1); (-1); (-1); (-1); (-1); (-1); (-1); (-1); (-1); (-1); (-1); (-1); (-1); (-1); (-1); (-1); (-1); (-1); (-1); 0; (-1); (-1); 0; (-1); (-1); 0; (-1); 0];
   [(-1); (-1); (-1); (-1); (-1); (-1); (-1); (-1); (-1); (-1); (-1); (-1); (-1); (-1); (-1); (-1); (-1); (-1); (-1); (-1); (-1); (-1); (-1); (-1); (-1); (-1); (-1); (-1); 0; 0; 0; 0; 0; 0; 0; 0];
   [(-1); (-1); (-1); (-1); (-1); (-1); (-1); (-1); (-1); (-1); (-1); (-1); (-1); (-1); (-1); (-1); (-1); (-1); (-1); (-1); (-1); (-1); (-1); (-1); (-1); (-1); (-1); (-1); (-1); 0; 0; 0; 0; 0; 0; 0];
   [(-1); (-1); (-1); (-1); (-1); (-1); (-1); (-1); (-1); (-1); (-1); (-1); (-1); (-1); (-1); (-1); (-1); (-1); (-1); (-1); (-1); (-1); (-1); (-1); (-1); (-1); (-1); (-1); (-1); (-1); 0; (-1); (-1); 0; (-1); 0];
   [(-1); (-1); (-1); (-1); (-1); (-1); (-1); (-1); (-1); (-1); (-1); (-1); (-1); (-1); (-1); (-1); (-1); (-1); (-1); (-1); (-1); (-1); (-1); (-1); (-1); (-1); (-1); (-1); (-1); (-1); (-1); 0; 0; 0; 0; 0];
   [(-1); (-1); (-1); (-1); (-1); (-1); (-1); (-1); (-1); (-1); (-1); (-1); (-1); (-1); (-1); (-1); (-1); (-1); (-1); (-1); (-1); (-1); (-1); (-1); (-1); (-1); (-1); (-1); (-1); (-1); (-1); (-1); 0; 0; 0; 0];
   [(-1); (-1); (-1); (-1); (-1); (-1); (-1); (-1); (-1); (-1); (-1); (-1); (-1); (-1); (-1); (-1); (-1); (-1); (-1); (-1); (-1); (-1); (-1); (-1); (-1); (-1); (-1); (-1); (-1); (-1); (-1); (-1); (-1); 0; (-1); 0];
   [(-1); (-1); (-1); (-1); (-1); (-1); (-1); (-1); (-1); (-1); (-1); (-1); (-1); (-1); (-1); (-1); (-1); (-1); (-1); (-1); (-1); (-1); (-1); (-1); (-1); (-1); (-1); (-1); (-1); (-1); (-1); (-1); (-1); (-1); 0; 0];
   [(-1); (-1); (-1); (-1); (-1); (-1); (-1); (-1); (-1); (-1); (-1); (-1); (-1); (-1); (-1); (-1); (-1); (-1); (-1); (-1); (-1); (-1); (-1); (-1); (-1); (-1); (-1); (-1); (-1); (-1); (-1); (-1); (-1); (-1); (-1); 0]].
(** commonTypes, CommonType.cpp:43-339 *)
Definition commonTypes : list (list nat) :=
  [[0; 1; 2; 3; 4; 5; 6; 7; 8; 9; 10; 11; 12; 13; 14; 15; 16; 17; 18; 19; 20; 21; 22; 23; 24; 25; 26; 27; 28; 29; 30; 31; 32; 33; 34; 35];
   [1; 1; 2; 3; 4; 5; 6; 7; 8; 9; 10; 11; 12; 13; 14; 15; 16; 17; 18; 19; 20; 21; 22; 23; 24; 25; 26; 27; 28; 29; 30; 31; 32; 33; 34; 35];
   [2; 2; 2; 3; 4; 5; 6; 7; 8; 9; 10; 11; 12; 13; 14; 15; 16; 17; 18; 19; 20; 21; 22; 23; 24; 25; 26; 27; 28; 29; 30; 31; 32; 33; 34; 35];
   [3; 3; 3; 3; 4; 5; 6; 7; 8; 9; 10; 11; 12; 13; 14; 15; 16; 17; 18; 19; 20; 21; 22; 23; 24; 25; 26; 27; 28; 29; 30; 31; 32; 33; 34; 35];
   [4; 4; 4; 4; 4; 5; 6; 7; 8; 9; 10; 11; 12; 13; 14; 15; 16; 17; 18; 19; 20; 21; 22; 23; 24; 25; 26; 27; 28; 29; 30; 31; 32; 33; 34; 35];
   [5; 5; 5; 5; 5; 5; 6; 7; 8; 9; 10; 11; 12; 13; 14; 15; 16; 17; 18; 19; 20; 21; 22; 23; 24; 25; 26; 27; 28; 29; 30; 31; 32; 33; 34; 35];
   [6; 6; 6; 6; 6; 6; 6; 7; 8; 9; 10; 11; 12; 13; 14; 15; 16; 17; 18; 19; 20; 21; 22; 23; 24; 25; 26; 27; 28; 29; 30; 31; 32; 33; 34; 35];
   [7; 7; 7; 7; 7; 7; 7; 7; 8; 9; 10; 11; 12; 13; 14; 15; 16; 17; 18; 19; 20; 21; 22; 23; 24; 25; 26; 27; 28; 29; 30; 31; 32; 33; 34; 35];
   [8; 8; 8; 8; 8; 8; 8; 8; 8; 9; 10; 11; 12; 13; 14; 15; 16; 17; 18; 19; 20; 21; 22; 23; 24; 25; 26; 27; 28; 29; 30; 31; 32; 33; 34; 35];
   [9; 9; 9; 9; 9; 9; 9; 9; 9; 9; 10; 11; 12; 13; 14; 15; 16; 17; 18; 19; 20; 21; 22; 23; 24; 25; 26; 27; 28; 29; 30; 31; 32; 33; 34; 35];
   [10; 10; 10; 10; 10; 10; 10; 10; 10; 10; 10; 11; 12; 13; 14; 15; 16; 17; 18; 19; 20; 21; 22; 23; 24; 25; 26; 27; 28; 29; 30; 31; 32; 33; 34; 35];
   [11; 11; 11; 11; 11; 11; 11; 11; 11; 11; 11; 11; 12; 13; 14; 15; 16; 17; 18; 19; 20; 21; 22; 23; 24; 25; 26; 27; 28; 29; 30; 31; 32; 33; 34; 35];
   [12; 12; 12; 12; 12; 12; 12; 12; 12; 12; 12; 12; 12; 13; 14; 15; 16; 17; 18; 19; 20; 21; 22; 23; 24; 25; 26; 27; 28; 29; 30; 31; 32; 33; 34; 35];
   [13; 13; 13; 13; 13; 13; 13; 13; 13; 13; 13; 13; 13; 13; 14; 15; 16; 17; 18; 19; 20; 21; 22; 23; 24; 25; 26; 27; 28; 29; 30; 31; 32; 33; 34; 35];
   [14; 14; 14; 14; 14; 14; 14; 14; 14; 14; 14; 14; 14; 14; 14; 15; 16; 17; 18; 19; 20; 21; 22; 23; 24; 25; 26; 27; 28; 29; 30; 31; 32; 33; 34; 35];
   [15; 15; 15; 15; 15; 15; 15; 15; 15; 15; 15; 15; 15; 15; 15; 15; 17; 17; 19; 19; 21; 21; 23; 23; 25; 25; 27; 27; 30; 30; 30; 33; 33; 33; 35; 35];
   [16; 16; 16; 16; 16; 16; 16; 16; 16; 16; 16; 16; 16; 16; 16; 17; 16; 17; 18; 19; 20; 21; 22; 23; 24; 25; 26; 27; 28; 29; 30; 31; 32; 33; 34; 35];
   [17; 17; 17; 17; 17; 17; 17; 17; 17; 17; 17; 17; 17; 17; 17; 17; 17; 17; 19; 19; 21; 21; 23; 23; 25; 25; 27; 27; 30; 30; 30; 33; 33; 33; 35; 35];
   [18; 18; 18; 18; 18; 18; 18; 18; 18; 18; 18; 18; 18; 18; 18; 19; 18; 19; 18; 19; 20; 21; 22; 23; 24; 25; 26; 27; 28; 29; 30; 31; 32; 33; 34; 35];
   [19; 19; 19; 19; 19; 19; 19; 19; 19; 19; 19; 19; 19; 19; 19; 19; 19; 19; 19; 19; 21; 21; 23; 23; 25; 25; 27; 27; 30; 30; 30; 33; 33; 33; 35; 35];
   [20; 20; 20; 20; 20; 20; 20; 20; 20; 20; 20; 20; 20; 20; 20; 21; 20; 21; 20; 21; 20; 21; 22; 23; 24; 25; 26; 27; 28; 29; 30; 31; 32; 33; 34; 35];
   [21; 21; 21; 21; 21; 21; 21; 21; 21; 21; 21; 21; 21; 21; 21; 21; 21; 21; 21; 21; 21; 21; 23; 23; 25; 25; 27; 27; 30; 30; 30; 33; 33; 33; 35; 35];
   [22; 22; 22; 22; 22; 22; 22; 22; 22; 22; 22; 22; 22; 22; 22; 23; 22; 23; 22; 23; 22; 23; 22; 23; 24; 25; 26; 27; 28; 29; 30; 31; 32; 33; 34; 35];
   [23; 23; 23; 23; 23; 23; 23; 23; 23; 23; 23; 23; 23; 23; 23; 23; 23; 23; 23; 23; 23; 23; 23; 23; 25; 25; 27; 27; 30; 30; 30; 33; 33; 33; 35; 35];
   [24; 24; 24; 24; 24; 24; 24; 24; 24; 24; 24; 24; 24; 24; 24; 25; 24; 25; 24; 25; 24; 25; 24; 25; 24; 25; 26; 27; 28; 29; 30; 31; 32; 33; 34; 35];
   [25; 25; 25; 25; 25; 25; 25; 25; 25; 25; 25; 25; 25; 25; 25; 25; 25; 25; 25; 25; 25; 25; 25; 25; 25; 25; 27; 27; 30; 30; 30; 33; 33; 33; 35; 35];
   [26; 26; 26; 26; 26; 26; 26; 26; 26; 26; 26; 26; 26; 26; 26; 27; 26; 27; 26; 27; 26; 27; 26; 27; 26; 27; 26; 27; 28; 29; 30; 31; 32; 33; 34; 35];
   [27; 27; 27; 27; 27; 27; 27; 27; 27; 27; 27; 27; 27; 27; 27; 27; 27; 27; 27; 27; 27; 27; 27; 27; 27; 27; 27; 27; 30; 30; 30; 33; 33; 33; 35; 35];
   [28; 28; 28; 28; 28; 28; 28; 28; 28; 28; 28; 28; 28; 28; 28; 30; 28; 30; 28; 30; 28; 30; 28; 30; 28; 30; 28; 30; 28; 29; 30; 31; 32; 33; 34; 35];
   [29; 29; 29; 29; 29; 29; 29; 29; 29; 29; 29; 29; 29; 29; 29; 30; 29; 30; 29; 30; 29; 30; 29; 30; 29; 30; 29; 30; 29; 29; 30; 31; 32; 33; 34; 35];
   [30; 30; 30; 30; 30; 30; 30; 30; 30; 30; 30; 30; 30; 30; 30; 30; 30; 30; 30; 30; 30; 30; 30; 30; 30; 30; 30; 30; 30; 30; 30; 33; 33; 33; 35; 35];
   [31; 31; 31; 31; 31; 31; 31; 31; 31; 31; 31; 31; 31; 31; 31; 33; 31; 33; 31; 33; 31; 33; 31; 33; 31; 33; 31; 33; 31; 31; 33; 31; 32; 33; 34; 35];
   [32; 32; 32; 32; 32; 32; 32; 32; 32; 32; 32; 32; 32; 32; 32; 33; 32; 33; 32; 33; 32; 33; 32; 33; 32; 33; 32; 33; 32; 32; 33; 32; 32; 33; 34; 35];
   [33; 33; 33; 33; 33; 33; 33; 33; 33; 33; 33; 33; 33; 33; 33; 33; 33; 33; 33; 33; 33; 33; 33; 33; 33; 33; 33; 33; 33; 33; 33; 33; 33; 33; 35; 35];
   [34; 34; 34; 34; 34; 34; 34; 34; 34; 34; 34; 34; 34; 34; 34; 35; 34; 35; 34; 35; 34; 35; 34; 35; 34; 35; 34; 35; 34; 34; 35; 34; 34; 35; 34; 35];
   [35; 35; 35; 35; 35; 35; 35; 35; 35; 35; 35; 35; 35; 35; 35; 35; 35; 35; 35; 35; 35; 35; 35; 35; 35; 35; 35; 35; 35; 35; 35; 35; 35; 35; 35; 35]]%nat.
Definition kinds : nat := 36.
Definition SignedInt : nat := 6.
Definition costOf (a b : nat) : Z := at2 (-1) costMatrix a b.
Definition signOf (a b : nat) : Z := at2 (-1) signMatrix a b.
Definition commonOf (a b : nat) : nat := at2 kinds commonTypes a b.
(** conversionCostFromBasicToBasic, ConversionCost.cpp:311-320; None: an assertion of Cost fails *)
Definition conv (a b : nat) : option Z :=
  if costOf a b =? -1 then Some Model.unsafe
  else match Model.incSafe Model.zero (costOf a b) with Some c => Model.incSign c (signOf a b) | None => None end.
(** from zero_t and one_t, ConversionCost.cpp:466-475,496-505 *)
Definition conv01 (b : nat) : option Z :=
  if costOf SignedInt b =? -1 then Some Model.unsafe
  else match Model.incSafe Model.zero (costOf SignedInt b + 1) with Some c => Model.incSign c (signOf SignedInt b) | None => None end.
(** from zero_t to a pointer, ConversionCost.cpp:480-484 *)
Definition conv0p : option Z := Model.incSafe Model.zero (maxIntCost + 2).
