(** The map from processors to last-level caches: libcfa/src/device/cpu.cfa and libcfa/src/algorithms/range_iterator.cfa.
    Not modelled: the files (their texts are given), the cache levels below the last one, the release of memory.
    Blanks and signs, which strtoul and sscanf accept before a number, are taken as errors. *)
From Coq Require Import Ascii String ZArith List Bool Arith.
Import ListNotations.
Local Open Scope Z_scope.
Notation text := (list ascii).
Definition digit (c : ascii) : option Z := let n := Z.of_nat (nat_of_ascii c) in if (48 <=? n) && (n <=? 57) then Some (n - 48) else None.
(** the digits at the start of a text: %u of sscanf, strtoul *)
Fixpoint num (t : text) (acc : Z) : Z * text :=
  match t with
  | [] => (acc, [])
  | c :: r => match digit c with Some d => num r (10 * acc + d) | None => (acc, t) end
  end.
Definition scan_u (t : text) : option (Z * text) :=
  match t with [] => None | c :: _ => match digit c with Some _ => Some (num t 0) | None => None end end.

(** ** RangeIter, range_iterator.cfa:24-64 *)
(** sscanf( text, "%u%n-%u%n", ... ), line 29 *)
Inductive scan := Eof | Zero | One (a : Z) (r : text) | Two (a b : Z) (r : text).
Definition sscanf (t : text) : scan :=
  match t with
  | [] => Eof
  | _ => match scan_u t with
         | None => Zero
         | Some (a, r) => match r with
                          | c :: r' => if Ascii.eqb c "-" then match scan_u r' with Some (b, r'') => Two a b r'' | None => One a r end else One a r
                          | [] => One a r
                          end
         end
  end.
(** how the generator ends: after the last value; by exit( 2 ); with a number that no int holds; Fuel: not reached *)
Inductive status := Done | Exit | Overflow | Fuel.
Definition zseq (a b : Z) : list Z := map (fun i => a + Z.of_nat i) (seq 0 (Z.to_nat (b - a + 1))).
Definition big (a : Z) : bool := 2 ^ 31 - 1 <=? a.
Fixpoint iter (fuel : nat) (t : text) : list Z * status :=
  match fuel with
  | O => ([], Fuel)
  | S f =>
    let after (l : list Z) (r : text) := match r with [] => (l, Done) | _ => let (l', st) := iter f r in (l ++ l', st) end in
    match sscanf t with
    | Zero => match t with c :: r => if Ascii.eqb c "," then iter f r else ([], Exit) | [] => ([], Exit) end
    | One a r => if big a then ([], Overflow) else after [a] r
    | Two a b r => if big a || big b then ([], Overflow) else if b <? a then ([], Exit) else after (zseq a b) r
    | Eof => ([], Exit)
    end
  end.
(** the values that moveNext delivers *)
Definition range_iter (t : text) : list Z * status := iter (S (length t)) t.

(** ** The width of a list of ranges, cpu.cfa:51-92; a failed verify is None *)
Fixpoint cut (d : ascii) (t : text) : option (text * text) :=
  match t with
  | [] => None
  | c :: r => if Ascii.eqb c d then Some ([], r) else match cut d r with Some (a, b) => Some (c :: a, b) | None => None end
  end.
Definition read_value (t : text) : option Z := match scan_u t with Some (v, []) => Some (v mod 2 ^ 32) | _ => None end.
Fixpoint width (fuel : nat) (t : text) : option Z :=
  match fuel with
  | O => None
  | S f =>
    match cut "," t with
    | Some (a, b) => match width f a, width f b with Some x, Some y => Some ((x + y) mod 2 ^ 32) | _, _ => None end
    | None =>
      match cut "-" t with
      | Some (a, b) => match read_value a, read_value b with Some x, Some y => Some ((y - x + 1) mod 2 ^ 32) | _, _ => None end
      | None => match read_value t with Some _ => Some 1 | None => None end
      end
    end
  end.
Definition read_width (t : text) : option Z := width (S (length t)) t.

(** ** The map; an access outside an array or to an element never written is None *)
Definition teqb (a b : text) : bool := String.eqb (string_of_list_ascii a) (string_of_list_ascii b).
Definition upd {A} (f : nat -> option A) (i : nat) (x : A) : nat -> option A := fun j => if Nat.eqb j i then Some x else f j.
(** build_raw_cache_table, 241-262: the text of the last-level cache of each processor; raw has n elements *)
Definition raw_table (n : nat) (cpus : list nat) (llc : nat -> text) : option (nat -> option text) :=
  fold_left (fun acc i => match acc with Some f => if Nat.ltb i n then Some (upd f i (llc i)) else None | None => None end) cpus (Some (fun _ => None)).
Definition mapM {A B} (f : A -> option B) (l : list A) : option (list B) :=
  fold_right (fun a acc => match f a, acc with Some b, Some r => Some (b :: r) | _, _ => None end) (Some []) l.
(** distinct_llcs, 271-308 *)
Definition distinct (l : list text) : list text := fold_left (fun maps x => if existsb (teqb x) maps then maps else maps ++ [x]) l [].
Fixpoint index (x : text) (maps : list text) (j : nat) : option nat :=
  match maps with [] => None | y :: r => if teqb x y then Some j else index x r (S j) end.
(** get_cpu_pairings, 319-338 *)
Definition pairings (n : nat) (cpus : list nat) (raw : nat -> option text) (maps : list text) : option (list (nat * nat)) :=
  match fold_left (fun acc i => match acc with
                                | Some f => match raw i with
                                            | Some x => match index x maps 0 with Some j => Some (upd f i (i, j)) | None => None end
                                            | None => None
                                            end
                                | None => None
                                end) cpus (Some (fun _ => None)) with
  | Some f => mapM f (seq 0 n)
  | None => None
  end.
(** 418-433: where the processors of each cache start *)
Definition start_step (w : nat -> nat) (acc : (nat -> option nat) * nat) (p : nat * nat) : (nat -> option nat) * nat :=
  let (st, it) := acc in match st (snd p) with Some _ => (st, it) | None => (upd st (snd p) it, (it + w (snd p))%nat) end.
Definition starts (w : nat -> nat) (q : list (nat * nat)) : (nat -> option nat) * nat := fold_left (start_step w) q (fun _ => None, O).
Record entry := E { self : nat; start : nat; count : nat; cache : nat }.
(** 435-450: the entries *)
Definition entry_step (n : nat) (w : nat -> nat) (st : nat -> option nat) (acc : option ((nat -> option entry) * (nat -> nat))) (p : nat * nat) :=
  match acc with
  | Some (en, cn) =>
      let (c, id) := p in
      match st id with
      | Some s => if Nat.ltb c n then Some (upd en c (E (s + cn id) s (w id) id), fun j => if Nat.eqb j id then S (cn j) else cn j) else None
      | None => None
      end
  | None => None
  end.
Definition entries (n : nat) (w : nat -> nat) (q : list (nat * nat)) : option (nat -> option entry) :=
  match fold_left (entry_step n w (fst (starts w q))) q (Some (fun _ => None, fun _ => O)) with Some (en, _) => Some en | None => None end.
(** __cfaabi_device_startup, 343-466: online is the text of the processors; q the array of pairs after qsort *)
Definition prepare (online : text) (llc : nat -> text) : option (nat * list nat * list text * list (nat * nat)) :=
  match range_iter online, read_width online with
  | (l, Done), Some k =>
      let n := Z.to_nat k in let cpus := map Z.to_nat l in
      match raw_table n cpus llc with
      | Some raw =>
          match mapM raw cpus with
          | Some texts => let maps := distinct texts in match pairings n cpus raw maps with Some p => Some (n, cpus, maps, p) | None => None end
          | None => None
          end
      | None => None
      end
  | _, _ => None
  end.
Definition finish (n : nat) (cpus : list nat) (maps : list text) (q : list (nat * nat)) : option (nat -> option entry) :=
  match mapM (nth_error q) cpus, mapM read_width maps with
  | Some q', Some ws => entries n (fun id => Z.to_nat (nth id ws 0)) q'
  | _, _ => None
  end.
