(** Intrusive doubly linked lists, libcfa/src/collections/list.hfa. A pointer is an element or a list origin: the tag bit of lines 95-135
    is the constructor, ORIGIN_TAG_CLEAR maps an origin to the links in the list header. Elements embed one dlink; address arithmetic of
    $get_list_origin_addr (172-179), the variadic versions, and the two experimental modes are not modelled. verify failing is None. *)
From Coq Require Import List Bool Arith.
From Verif.DList Require Import Spec.
Import ListNotations.
(** dlink fields next, prev (156-159) of every element and list header; None is 0p *)
Record heap := H { nx : ref -> option ref; pv : ref -> option ref }.
Definition refb (a b : ref) : bool := match a, b with Orig i, Orig j => i =? j | Node i, Node j => i =? j | _, _ => false end.
Definition put (f : ref -> option ref) (a : ref) (x : option ref) : ref -> option ref := fun b => if refb b a then x else f b.
(** constructors 160-164, 180-184 *)
Definition init : heap := H (fun a => match a with Orig _ => Some a | Node _ => None end) (fun a => match a with Orig _ => Some a | Node _ => None end).
(** listed, 190-200 *)
Definition listed (h : heap) (n : nat) : bool := match pv h (Node n), nx h (Node n) with None, None => false | _, _ => true end.
(** an untagged pointer, else 0p *)
Definition elem (p : option ref) : option nat := match p with Some (Node n) => Some n | _ => None end.
(** empty, first, last, 202-218 *)
Definition first (h : heap) (l : nat) : option nat := elem (nx h (Orig l)).
Definition last (h : heap) (l : nat) : option nat := elem (pv h (Orig l)).
Definition empty (h : heap) (l : nat) : bool := match first h l with None => true | Some _ => false end.
(** 220-242 *)
Definition insert_before (h : heap) (p : ref) (n : nat) : option heap :=
  match nx h (Node n), pv h (Node n), pv h p with
  | None, None, Some b =>
      let h1 := H (put (nx h) (Node n) (Some p)) (put (pv h) (Node n) (Some b)) in
      Some (H (put (nx h1) b (Some (Node n))) (put (pv h1) p (Some (Node n))))
  | _, _, _ => None
  end.
(** 253-275 *)
Definition insert_after (h : heap) (p : ref) (n : nat) : option heap :=
  match pv h (Node n), nx h (Node n), nx h p with
  | None, None, Some a =>
      let h1 := H (put (nx h) (Node n) (Some a)) (put (pv h) (Node n) (Some p)) in
      Some (H (put (nx h1) p (Some (Node n))) (put (pv h1) a (Some (Node n))))
  | _, _, _ => None
  end.
(** 286-307 *)
Definition remove (h : heap) (n : nat) : option heap :=
  match pv h (Node n), nx h (Node n) with
  | Some b, Some a =>
      let h1 := H (put (nx h) b (Some a)) (put (pv h) a (Some b)) in
      Some (H (put (nx h1) (Node n) None) (put (pv h1) (Node n) None))
  | _, _ => None
  end.
(** 323-335: the new position, and whether it is an element *)
Definition recede (h : heap) (p : ref) : option ref * bool := (pv h p, match pv h p with Some (Node _) => true | _ => false end).
Definition advance (h : heap) (p : ref) : option ref * bool := (nx h p, match nx h p with Some (Node _) => true | _ => false end).
(** first, last of an element, 337-343 *)
Definition is_first (h : heap) (n : nat) : bool := snd (recede h (Node n)).
Definition is_last (h : heap) (n : nat) : bool := snd (advance h (Node n)).
(** 345-353 *)
Definition prev (h : heap) (n : nat) : option nat := if snd (recede h (Node n)) then elem (fst (recede h (Node n))) else None.
Definition next (h : heap) (n : nat) : option nat := if snd (advance h (Node n)) then elem (fst (advance h (Node n))) else None.
(** 355-410 *)
Definition insert_first (h : heap) (l n : nat) := insert_after h (Orig l) n.
Definition insert_last (h : heap) (l n : nat) := insert_before h (Orig l) n.
Definition remove_first (h : heap) (l : nat) : option (heap * option nat) :=
  match first h l with Some x => match remove h x with Some h' => Some (h', Some x) | None => None end | None => Some (h, None) end.
Definition remove_last (h : heap) (l : nat) : option (heap * option nat) :=
  match last h l with Some x => match remove h x with Some h' => Some (h', Some x) | None => None end | None => Some (h, None) end.
Definition ins (o : option heap) (n : nat) : option (heap * res) := match o with Some h => Some (h, RNode (Some n)) | None => None end.
Definition rem (o : option (heap * option nat)) : option (heap * res) := match o with Some (h, x) => Some (h, RNode x) | None => None end.
Definition exec (h : heap) (o : op) : option (heap * res) :=
  match o with
  | InsBefore p n => ins (insert_before h p n) n
  | InsAfter p n => ins (insert_after h p n) n
  | Remove n => ins (remove h n) n
  | InsFirst l n => ins (insert_first h l n) n
  | InsLast l n => ins (insert_last h l n) n
  | RemFirst l => rem (remove_first h l)
  | RemLast l => rem (remove_last h l)
  | First l => Some (h, RNode (first h l))
  | Last l => Some (h, RNode (last h l))
  | Empty l => Some (h, RBool (empty h l))
  | Listed n => Some (h, RBool (listed h n))
  | Next n => Some (h, RNode (next h n))
  | Prev n => Some (h, RNode (prev h n))
  end.
(** while ( tE & it = iter( list ); advance( it ) ): the elements met, and whether it ended, in at most k steps *)
Fixpoint walk (f : heap -> ref -> option ref * bool) (h : heap) (p : ref) (k : nat) : list nat * bool :=
  match k with
  | 0 => ([], false)
  | S k' => match f h p with
            | (Some (Node n), true) => let (r, e) := walk f h (Node n) k' in (n :: r, e)
            | _ => ([], true)
            end
  end.
(** $validate_fwd, $validate_rev (445-473), the loop over the elements met *)
Definition onb (a b : option nat) : bool := match a, b with Some x, Some y => x =? y | None, None => true | _, _ => false end.
Definition validate (f : heap -> ref -> option ref * bool) (e1 e2 : option nat) (h : heap) (l k : nat) : bool :=
  match e1 with
  | None => onb e2 None
  | Some _ => let (xs, _) := walk f h (Orig l) k in onb (hd_error xs) e1 && onb (hd_error (rev xs)) e2
  end.
