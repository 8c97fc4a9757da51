(** The cursor that follows initializers through the object they initialize, src/ResolvExpr/CurrentObject.cpp: it gives the types that an initializer is resolved against.
    Types: Scal: types without members (SimpleIterator); Agg u i ms: structure (u = false) or union i with the types of its members; arrays with their size.
    Members are numbers: the lookup of names in designators (findNext, 507-522), anonymous members and members with the same name are not modelled, nor generic types (sub), tuples, members that are not objects (init(), 252-263, false before the end), the evaluation of index expressions and of sizes, variable-length arrays. *)
From Coq Require Import List Bool Arith.
Import ListNotations.
Inductive ty := Scal (k : nat) | Arr (n : nat) (b : ty) | Agg (u : bool) (i : nat) (ms : list ty).
Definition path := list nat.
(** The iterators. ISimple: SimpleIterator, 90-123; IArr: ArrayIterator with index, size, base, memberIter, 126-235; IAgg: StructIterator and UnionIterator with curMember, atbegin, memberIter, 237-400 *)
Inductive it := ISimple (t : option ty) | IArr (i n : nat) (b : ty) (m : option it) | IAgg (u : bool) (i : nat) (ms : list ty) (c : nat) (a : bool) (m : option it).
(** createMemberIterator, 460-483, and the constructors, 190-198 and 265-272 *)
Fixpoint create (t : ty) : it :=
  match t with
  | Scal k => ISimple (Some (Scal k))
  | Arr n b => IArr 0 n b (Some (create b))
  | Agg u i ms => IAgg u i ms 0 true (match ms with [] => None | t :: _ => Some (create t) end)
  end.
(** operator bool, 107, 173, 367-369 and 389 *)
Fixpoint valid (x : it) : bool :=
  match x with
  | ISimple o => match o with Some _ => true | None => false end
  | IArr i n _ _ => i <? n
  | IAgg u _ ms c _ m => (negb u && (c <? length ms)) || match m with Some m => valid m | None => false end
  end.
(** bigStep, 109, 200-205, 371-381 and 391-399 *)
Definition big (x : it) : it :=
  match x with
  | ISimple _ => ISimple None
  | IArr i n b _ => IArr (S i) n b (if S i <? n then Some (create b) else None)
  | IAgg false i ms c _ _ => IAgg false i ms (Nat.min (S c) (length ms)) false (option_map create (nth_error ms (S c)))
  | IAgg true i ms _ _ _ => IAgg true i ms (length ms) false None
  end.
(** smallStep, 110-113, 207-218 and 318-330 *)
Fixpoint small (x : it) : it :=
  match x with
  | ISimple _ => ISimple None
  | IArr i n b (Some m) => let m' := small m in if valid m' then IArr i n b (Some m') else big x
  | IAgg u i ms c a (Some m) => let m' := small m in if valid m' then IAgg u i ms c false (Some m') else big x
  | _ => big x
  end.
(** Err: an error or a failed assertion; Crash: use of a null pointer *)
Inductive res (A : Type) := Ok (a : A) | Err | Crash.
Arguments Ok {A} a. Arguments Err {A}. Arguments Crash {A}.
Definition bind {A B} (x : res A) (f : A -> res B) : res B := match x with Ok a => f a | Err => Err | Crash => Crash end.
(** setPosition, 96-103, 137-169 and 275-297 *)
Fixpoint setpos (d : path) (x : it) {struct d} : res it :=
  match d with
  | [] => Ok x
  | i :: r =>
      match x with
      | ISimple _ => Err
      | IArr _ n b None => Crash
      | IArr _ n b (Some m) => bind (setpos r m) (fun m' => Ok (IArr i n b (Some m')))
      | IAgg u j ms _ _ _ => match nth_error ms i with None => Err | Some t => bind (setpos r (create t)) (fun m' => Ok (IAgg u j ms i ((i =? 0) && match r with [] => true | _ => false end) (Some m'))) end
      end
  end.
(** first, 119-122, 224-234 and 341-359, and getOptions, 105, 171 and 299-316: the types and the designators of what can be initialized next *)
Definition push (i : nat) (z : ty * path) : ty * path := (fst z, i :: snd z).
Definition inner (f : it -> list (ty * path)) (i : nat) (m : option it) : list (ty * path) := match m with Some m => if valid m then map (push i) (f m) else [] | None => [] end.
Fixpoint first (x : it) : list (ty * path) :=
  match x with
  | ISimple (Some t) => [(t, [])]
  | ISimple None => []
  | IArr i _ _ m => match m with Some m => if valid m then map (push i) (first m) else [] | None => [] end
  | IAgg u j ms c a m => (if a then [(Agg u j ms, [])] else []) ++ match m with Some m => if valid m then map (push c) (first m) else [] | None => [] end
  end.
Definition options (x : it) : list (ty * path) := match x with IAgg _ _ _ c _ m => inner first c m | _ => first x end.
(** getType, 115, 220, 334; getNext, 117, 222, 336-339 *)
Definition get_type (x : it) : option ty := match x with ISimple o => o | IArr _ n b _ => Some (Arr n b) | IAgg u i ms _ _ _ => Some (Agg u i ms) end.
Definition get_next (x : it) : option ty := match x with ISimple o => o | IArr _ _ b _ => Some b | IAgg _ _ _ _ _ m => match m with Some m => if valid m then get_type m else None | None => None end end.
(** Initializers: an expression, of a type without members or of the structure or union i, or a list of initializers with designators ([]: none) *)
Inductive expr := Sc | Ag (i : nat).
Inductive init := Single (e : expr) | Lst (items : list (path * init)).
(** The choice of the resolver (UntypedInitExpr, CandidateFinder.cpp:1764-1845) is simplified: the first of the types that the expression has; conversions are only between types without members *)
Definition matches (e : expr) (t : ty) : bool := match e, t with Sc, Scal _ => true | Ag i, Agg _ j _ => i =? j | _, _ => false end.
(** the types that the designators of findNext, 491-560, go through: the number of an element is not compared with the size *)
Fixpoint chain (t : ty) (d : path) : option ty :=
  match d with
  | [] => Some t
  | i :: r => match t with Scal _ => None | Arr _ b => chain b r | Agg _ _ ms => match nth_error ms i with Some t => chain t r | None => None end end
  end.
Definition find_next (x : it) (d : path) : res it :=
  match d with [] => Ok x | _ => match get_type x with None => Err | Some t => match chain t d with None => Err | Some _ => setpos d x end end end.
(** Resolver.cpp:1228-1298 with setNext, increment, enterListInit and exitListInit (562-591). The log: for an expression the designators and the type it is resolved against, for a list the type it is entered with *)
Inductive log := LS (p : path) (t : ty) | LL (t : ty) (l : list log).
Definition go_items (f : init -> it -> res (it * log)) : list (path * init) -> it -> res (it * list log) :=
  fix go items x := match items with
  | [] => Ok (x, [])
  | (d, i) :: r => bind (find_next x d) (fun x1 => bind (f i x1) (fun z => bind (go r (fst z)) (fun w => Ok (fst w, snd z :: snd w))))
  end.
Fixpoint run (i : init) (x : it) : res (it * log) :=
  match i with
  | Single e => match find (fun z => matches e (fst z)) (options x) with None => Err | Some (t, p) => bind (setpos p x) (fun x1 => Ok (small x1, LS p t)) end
  | Lst items => match get_next x with None => Err | Some t => bind (go_items run items (create t)) (fun w => Ok (big x, LL t (snd w))) end
  end.
(** CurrentObject, 487-489: the object of type t *)
Definition resolve (i : init) (t : ty) : res log := bind (run i (ISimple (Some t))) (fun z => Ok (snd z)).
