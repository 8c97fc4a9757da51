(** Searching, comparing, slicing and replacing in strings: libcfa/src/collections/string_res.cfa, string.cfa, string.hfa.
    A string is its characters, as unsigned bytes; where the characters are stored, and sharing, are not modelled here.
    Undef: memory outside the string is accessed, or signed arithmetic overflows. Loop: the call did not return within the fuel. *)
From Coq Require Import ZArith List Bool.
Import ListNotations.
Open Scope Z_scope.
Definition text := list Z.
Inductive res (A : Type) := Val (x : A) | Undef | Abort | Loop.
Arguments Val {A} x. Arguments Undef {A}. Arguments Abort {A}. Arguments Loop {A}.
Definition bind {A B} (r : res A) (f : A -> res B) : res B :=
  match r with Val x => f x | Undef => Undef | Abort => Abort | Loop => Loop end.
Definition lnth (s : text) : Z := Z.of_nat (length s).
(** conversion of a size_t to the result type int, and of that int to size_t *)
Definition to_int (x : Z) : Z := (x + 2 ^ 31) mod 2 ^ 32 - 2 ^ 31.
Definition to_size (x : Z) : Z := x mod 2 ^ 64.
Definition load (s : text) (i : nat) : res Z := match nth_error s i with Some c => Val c | None => Undef end.
(** libc memcmp on n bytes from s + i and t + j; only the sign of the answer is specified *)
Fixpoint memcmp (s : text) (i : nat) (t : text) (j n : nat) : res Z :=
  match n with
  | O => Val 0
  | S m => bind (load s i) (fun a => bind (load t j) (fun b => if a =? b then memcmp s (S i) t (S j) m else Val (a - b)))
  end.
(** libc memchr on n bytes from s + i: the index found *)
Fixpoint memchr (s : text) (i : nat) (c : Z) (n : nat) : res (option nat) :=
  match n with
  | O => Val None
  | S m => bind (load s i) (fun a => if a =? c then Val (Some i) else memchr s (S i) c m)
  end.
(** strcmp$, string_res.cfa:782-786, with l1 and l2 bytes at s1 and s2 *)
Definition strcmpl (s1 : text) (l1 : nat) (s2 : text) (l2 : nat) : res Z :=
  bind (memcmp s1 0 s2 0 (Nat.min l1 l2)) (fun r => Val (if negb (r =? 0) then r else to_int (to_size (Z.of_nat l1 - Z.of_nat l2)))).
(** strcmp and the operators, string_res.hfa:199-205 *)
Definition strcmp (s1 s2 : text) : res Z := strcmpl s1 (length s1) s2 (length s2).
Definition eq (a b : text) : res bool := bind (strcmp a b) (fun r => Val (r =? 0)).
Definition ne (a b : text) : res bool := bind (strcmp a b) (fun r => Val (negb (r =? 0))).
Definition gt (a b : text) : res bool := bind (strcmp a b) (fun r => Val (0 <? r)).
Definition ge (a b : text) : res bool := bind (strcmp a b) (fun r => Val (0 <=? r)).
Definition le (a b : text) : res bool := bind (strcmp a b) (fun r => Val (r <=? 0)).
Definition lt (a b : text) : res bool := bind (strcmp a b) (fun r => Val (r <? 0)).
(** strncmp, string.cfa:379-384 *)
Definition strncmp (a b : text) (n : nat) : res Z :=
  if (length a <? n)%nat || (length b <? n)%nat then Abort else strcmpl a n b n.
(** findFrom of a character, string_res.cfa:818-827; searchLnth wraps when fromPos is beyond the end *)
Definition findFromChar (s : text) (from : nat) (c : Z) : res Z :=
  if (length s <? from)%nat then Undef
  else bind (memchr s from c (length s - from)) (fun r => Val (to_int (match r with None => lnth s | Some i => Z.of_nat i end))).
(** the inner loop of findFrom, 868-874 *)
Fixpoint matched (key : text) (s : text) (i : nat) (j n : nat) : res bool :=
  match n with
  | O => Val true
  | S m => bind (load key j) (fun a => bind (load s (i + j)) (fun b => if negb (a =? b) then Val false else matched key s i (S j) m))
  end.
(** the outer loop of findFrom, 860-879; n iterations remain *)
Fixpoint scan (s key : text) (i n : nat) : res Z :=
  match n with
  | O => Val (to_int (lnth s))
  | S m =>
      if (length s - i <? length key)%nat then Val (to_int (lnth s))
      else bind (matched key s i 0 (length key)) (fun b => if b : bool then Val (to_int (Z.of_nat i)) else scan s key (S i) m)
  end.
(** findFrom, 848-880 *)
Definition findFrom (s : text) (from : nat) (key : text) : res Z :=
  if (length key =? 0)%nat then Val 0 else scan s key from (length s - from).
(** find, 844-846 *)
Definition find (s key : text) : res Z := findFrom s 0 key.
(** includes, 890-892; the int is converted to size_t for the comparison *)
Definition includes (s key : text) : res bool := bind (find s key) (fun r => Val (to_size r <? lnth s)).
(** startsWith 902-907, endsWith 917-925 *)
Definition startsWith (s p : text) : res bool :=
  if (length s <? length p)%nat then Val false else bind (memcmp s 0 p 0 (length p)) (fun r => Val (r =? 0)).
Definition endsWith (s p : text) : res bool :=
  if (length s <? length p)%nat then Val false
  else bind (memcmp s (length s - length p) p 0 (length p)) (fun r => Val (r =? 0)).
(** find on string, string.cfa:423-425: the int becomes a size_t *)
Definition sfind (s key : text) : res Z := bind (find s key) (fun r => Val (to_size r)).
(** test, string_res.cfa:949-956; exclude 958-963; include 965-970 (i counts up, n iterations remain) *)
Fixpoint test (mask : text) (c : Z) : bool := match mask with [] => false | m :: r => if m =? c then true else test r c end.
Fixpoint first_where (p : Z -> bool) (s : text) (i n : nat) : res nat :=
  match n with O => Val (length s) | S m => bind (load s i) (fun c => if p c then Val i else first_where p s (S i) m) end.
Definition exclude (s mask : text) : res Z := bind (first_where (test mask) s 0 (length s)) (fun i => Val (to_int (Z.of_nat i))).
Definition include (s mask : text) : res Z := bind (first_where (fun c => negb (test mask c)) s 0 (length s)) (fun i => Val (to_int (Z.of_nat i))).
(** include and exclude with a predicate, string.cfa:516-530; the result type is size_t *)
Definition includef (s : text) (f : Z -> Z) : res nat := first_where (fun c => f c =? 0) s 0 (length s).
Definition excludef (s : text) (f : Z -> Z) : res nat := first_where (fun c => negb (f c =? 0)) s 0 (length s).
(** signed arithmetic on ssize_t *)
Definition ssize (x : Z) : res Z := if (- 2 ^ 63 <=? x) && (x <? 2 ^ 63) then Val x else Undef.
(** the substring constructor: the handle covers n characters from start *)
Definition substr (s : text) (start n : Z) : res text :=
  if (0 <=? start) && (0 <=? n) && (start + n <=? lnth s) then Val (firstn (Z.to_nat n) (skipn (Z.to_nat start) s)) else Undef.
(** ?()( s, start, len ), string.cfa:245-252; [start += len( s )] is computed in size_t and cannot overflow *)
Definition slice (s : text) (start n : Z) : res text :=
  let start1 := if start <? 0 then start + lnth s else start in
  bind (if n <? 0 then bind (ssize (- n)) (fun n' => bind (ssize (start1 - (n' - 1))) (fun b => Val (b, n'))) else Val (start1, n)) (fun p =>
  let '(start2, n2) := p in
  if (start2 <? 0) || (lnth s <=? start2) then Val []
  else bind (ssize (start2 + n2)) (fun e => substr s start2 (if lnth s <? e then lnth s - start2 else n2))).
(** ?()( s, start ), 254-258 *)
Definition tail (s : text) (start : Z) : res text :=
  let start1 := if start <? 0 then start + lnth s else start in substr s start1 (lnth s - start1).
(** replace, 532-543 *)
Fixpoint replace (fuel : nat) (s from to : text) : res text :=
  match fuel with
  | O => Loop
  | S f =>
      bind (sfind s from) (fun pos =>
      if pos <? lnth s then
        bind (slice s 0 pos) (fun a => bind (tail s (pos + lnth from)) (fun b => bind (replace f b from to) (fun r => Val (a ++ to ++ r))))
      else Val s)
  end.
