(** Monitors: libcfa/src/concurrency/monitor.cfa. Threads, monitors, conditions and functions are numbers; the address order
    of monitors is the order of their numbers. One transition per critical section (the code holds the spin locks of the
    monitors it changes; lock_all takes them in address order). A woken thread continues with its next step: unpark and
    park are [Verif.Park]. Not modelled: destructors and join (__dtor_enter, __dtor_leave, dtor nodes), timeouts. *)
From Coq Require Import List Bool Arith.
From Verif.Monitor Require Import Spec.
Import ListNotations.

(** Run; Ent r: inside a guard's constructor, monitors r still to be entered; Blk m r: parked in the entry queue of m, then
    Ent r; Lea r: inside a guard's destructor, monitors r still to be left; Slp: parked in wait, signal_block or waitfor;
    Res: woken from Slp, about to restore (monitor_restore). *)
Inductive pc := Run | Ent (r : list nat) | Blk (m : nat) (r : list nat) | Lea (r : list nat) | Slp | Res.
(** struct monitor$, libcfa/src/concurrency/invoke.h. [sig] is the signal stack: threads whose criterion for this monitor is
    on it, top first. [mask]: the waiting thread (its *accepted) and the accepted calls. *)
Record mon := Mon { own : option nat; rc : nat; entry : list nat; sig : list nat; mask : option (nat * list gcall) }.
(** A thread: [fr] its active calls, innermost first (thrd->monitors); [nod] monitors of its __condition_node_t; [rdy] those whose
    criterion is ready; [sav] recursions saved by monitor_save; [acc] result of waitfor; [dep] how often it has entered a
    monitor without leaving it (ghost). *)
Record thr := Thr { pcs : pc; fr : list gcall; nod : list nat; rdy : list nat; sav : nat -> nat; acc : option nat; dep : nat -> nat }.
Record st := S_ { ms : nat -> mon; ts : nat -> thr; cq : nat -> list nat; cm : nat -> option (list nat) }.

Definition upd {A} (f : nat -> A) (i : nat) (x : A) : nat -> A := fun j => if j =? i then x else f j.
Definition init : st := S_ (fun _ => Mon None 0 [] [] None) (fun _ => Thr Run [] [] [] (fun _ => 0) None (fun _ => 0)) (fun _ => []) (fun _ => None).
Definition setM (s : st) (m : nat) (x : mon) : st := S_ (upd (ms s) m x) (ts s) (cq s) (cm s).
Definition setT (s : st) (t : nat) (x : thr) : st := S_ (ms s) (upd (ts s) t x) (cq s) (cm s).
Definition pcT (s : st) (t : nat) (k : pc) : st := let x := ts s t in setT s t (Thr k (fr x) (nod x) (rdy x) (sav x) (acc x) (dep x)).
(** t has entered m once more *)
Definition deep (s : st) (t m : nat) (k : pc) : st := let x := ts s t in setT s t (Thr k (fr x) (nod x) (rdy x) (sav x) (acc x) (upd (dep x) m (S (dep x m)))).
Definition ownM (s : st) (m : nat) (o : option nat) (r : nat) : st := let x := ms s m in setM s m (Mon o r (entry x) (sig x) (mask x)).

(** a thread taken from an entry queue goes on with the rest of its guard *)
Definition admit (s : st) (u m : nat) : st := match pcs (ts s u) with Blk _ r => deep s u m (Ent r) | _ => s end.
(** check_condition, monitor.cfa:872-891 *)
Definition check (s : st) (w m : nat) : st :=
  let x := ts s w in let rd := m :: rdy x in
  setT s w (Thr (if forallb (fun i => existsb (Nat.eqb i) rd) (nod x) then Res else pcs x) (fr x) (nod x) rd (sav x) (acc x) (dep x)).
(** next_thread, monitor.cfa:750-772, with the unpark of its caller *)
Definition next (s : st) (m : nat) : st :=
  let x := ms s m in
  match sig x with
  | w :: r => check (setM s m (Mon (Some w) 1 (entry x) r (mask x))) w m
  | [] => match entry x with
          | u :: r => admit (setM s m (Mon (Some u) 1 r [] (mask x))) u m
          | [] => setM s m (Mon None 0 [] [] (mask x))
          end
  end.
(** invoke.h:298-311 *)
Fixpoint leqb (a b : list nat) : bool := match a, b with [], [] => true | x :: a', y :: b' => (x =? y) && leqb a' b' | _, _ => false end.
Definition geqb (a b : gcall) : bool := (fst a =? fst b) && leqb (snd a) (snd b).
(** index of the first accepted call equal to g *)
Fixpoint find (l : list gcall) (g : gcall) (i : nat) : option nat := match l with [] => None | a :: r => if geqb a g then Some i else find r g (S i) end.
(** is_accepted, monitor.cfa:774-794: Some i, the index to be stored (None: nothing stored). The pointer comparison of line 782 is always true. *)
Definition is_accepted (s : st) (m : nat) (g : gcall) : option (option nat) :=
  match mask (ms s m) with
  | None => None
  | Some (_, l) => match snd g with
                   | m0 :: _ => if m0 =? m then match find l g 0 with Some i => Some (Some i) | None => None end else Some None
                   | [] => None
                   end
  end.
Definition setacc (s : st) (w : nat) (i : option nat) : st :=
  match i with None => s | Some _ => let x := ts s w in setT s w (Thr (pcs x) (fr x) (nod x) (rdy x) (sav x) i (dep x)) end.
(** __enter, monitor.cfa:87-140, by thread t in call g, monitors r to follow *)
Definition enter (s : st) (t m : nat) (r : list nat) (g : gcall) : st :=
  let x := ms s m in
  match own x with
  | None => deep (ownM s m (Some t) 1) t m (Ent r)
  | Some o =>
      if o =? t then deep (ownM s m (Some t) (S (rc x))) t m (Ent r)
      else match is_accepted s m g with
           | Some i => deep (setM (match mask x with Some (w, _) => setacc s w i | None => s end) m (Mon (Some t) 1 (entry x) (sig x) None)) t m (Ent r)
           | None => pcT (setM s m (Mon (own x) (rc x) (entry x ++ [t]) (sig x) (mask x))) t (Blk m r)
           end
  end.
(** __leave, monitor.cfa:242-274 *)
Definition leave (s : st) (t m : nat) (r : list nat) : st :=
  let x := ts s t in let z := ms s m in let n := pred (rc z) in
  let s1 := setT (setM s m (Mon (own z) n (entry z) (sig z) (mask z))) t (Thr (Lea r) (fr x) (nod x) (rdy x) (sav x) (acc x) (upd (dep x) m (pred (dep x m)))) in
  if n =? 0 then next s1 m else s1.

(** t starts waiting on monitors l (wait_ctx 66-70, monitor_save 80 and 840-851) *)
Definition sleep (s : st) (t : nat) (l : list nat) : st :=
  let x := ts s t in setT s t (Thr Slp (fr x) l [] (fun m => rc (ms s m)) None (dep x)).
Definition push (s : st) (w : nat) (l : list nat) : st :=
  S_ (fun m => let x := ms s m in if existsb (Nat.eqb m) l then Mon (own x) (rc x) (entry x) (w :: sig x) (mask x) else x) (ts s) (cq s) (cm s).
(** __set_owner on several monitors, monitor.cfa:725-736 *)
Definition set_owner (s : st) (l : list nat) (w : nat) : st :=
  S_ (fun m => let x := ms s m in if existsb (Nat.eqb m) l then Mon (Some w) (match l with a :: _ => if m =? a then 1 else 0 | [] => 0 end) (entry x) (sig x) (mask x) else x) (ts s) (cq s) (cm s).
Definition set_mask (s : st) (l : list nat) (k : nat * list gcall) : st :=
  S_ (fun m => let x := ms s m in if existsb (Nat.eqb m) l then Mon (own x) (rc x) (entry x) (sig x) (Some k) else x) (ts s) (cq s) (cm s).
(** monitor_restore, monitor.cfa:853-866, by t (the saved masks are always empty, see the proofs: mask of a monitor whose owner is running) *)
Definition restore (s : st) (t : nat) : st :=
  pcT (S_ (fun m => let x := ms s m in if existsb (Nat.eqb m) (nod (ts s t)) then Mon (own x) (sav (ts s t) m) (entry x) (sig x) None else x) (ts s) (cq s) (cm s)) t Run.

Definition holds (s : st) (t : nat) (l : list nat) : bool := forallb (fun m => 0 <? dep (ts s t) m) l.
Fixpoint nodupb (l : list nat) : bool := match l with [] => true | a :: r => negb (existsb (Nat.eqb a) r) && nodupb r end.
Fixpoint sortedb (l : list nat) : bool := match l with a :: r => match r with b :: _ => (a <=? b) && sortedb r | [] => true end | [] => true end.
(** aggregate, monitor.cfa:960-972 *)
Fixpoint ins (x : nat) (l : list nat) : list nat := match l with [] => [x] | a :: r => if x <=? a then x :: l else a :: ins x r end.
Definition isort (l : list nat) : list nat := fold_right ins [] l.
Definition aggregate (k : list gcall) : list nat := isort (nodup Nat.eq_dec (concat (map snd k))).
(** search_entry_queue, monitor.cfa:907-937: for each accepted call in order, the first thread of the queue making it *)
Definition top_is (s : st) (g : gcall) (u : nat) : bool := match fr (ts s u) with c :: _ => geqb g c | [] => false end.
Fixpoint search (s : st) (k : list gcall) (q : list nat) (i : nat) : option (nat * nat) :=
  match k with [] => None | g :: r => match List.find (top_is s g) q with Some u => Some (u, i) | None => search s r q (S i) end end.
Definition del (t : nat) (l : list nat) : list nat := filter (fun u => negb (u =? t)) l.

Inductive act := Call (f : nat) (g : list nat) | Ret | Go | Wait (c : nat) | Signal (c : nat) | SigBlock (c : nat) | Waitfor (k : list gcall) (block : bool).
(** the monitors of condition c when used by t (brand_condition, monitor.cfa:893-905) *)
Definition brand (s : st) (t c : nat) : option (list nat) := match cm s c with Some l => Some l | None => match fr (ts s t) with (_, g) :: _ => Some g | [] => None end end.
Definition step (s : st) (t : nat) (a : act) : option st :=
  let x := ts s t in
  match pcs x, a with
  | Run, Call f g => (* monitor_guard_t constructor, monitor.cfa:343-366; the monitors after sorting *)
      if sortedb g then Some (setT s t (Thr (Ent g) ((f, g) :: fr x) (nod x) (rdy x) (sav x) (acc x) (dep x))) else None
  | Ent (m :: r), Go => match fr x with g :: _ => Some (enter s t m r g) | [] => None end
  | Ent [], Go => Some (pcT s t Run)
  | Run, Ret => (* destructor, monitor.cfa:374-384, leave 335-339 *)
      match fr x with (_, g) :: q => Some (setT s t (Thr (Lea (rev g)) q (nod x) (rdy x) (sav x) (acc x) (dep x))) | [] => None end
  | Lea (m :: r), Go => Some (leave s t m r)
  | Lea [], Go => Some (pcT s t Run)
  | Run, Wait c => (* monitor.cfa:441-493; the caller is inside the condition's monitors *)
      match brand s t c with
      | Some l => if holds s t l && nodupb l && negb (match l with [] => true | _ => false end)
                  then let s1 := sleep s t l in Some (fold_left next l (S_ (ms s1) (ts s1) (upd (cq s1) c (cq s1 c ++ [t])) (upd (cm s1) c (Some l)))) else None
      | None => None
      end
  | Run, Signal c => (* monitor.cfa:495-528 *)
      match cq s c, cm s c with
      | w :: q, Some l => if holds s t l then Some (push (S_ (ms s) (ts s) (upd (cq s) c q) (cm s)) w l) else None
      | _, _ => Some s
      end
  | Run, SigBlock c => (* monitor.cfa:530-564 *)
      match cq s c, cm s c with
      | w :: q, Some l => if holds s t l
                          then let s1 := set_owner (push (sleep s t l) t l) l w in Some (pcT (S_ (ms s1) (ts s1) (upd (cq s1) c q) (cm s1)) w Res) else None
      | _, _ => Some s
      end
  | Run, Waitfor k block => (* __waitfor_internal, monitor.cfa:589-710 *)
      let l := aggregate k in
      if holds s t l && forallb (fun g => sortedb (snd g)) k then
        match l with
        | [] => Some s
        | m0 :: _ =>
            match search s k (entry (ms s m0)) 0 with
            | Some (u, i) => (* baton passing *)
                let s1 := set_owner (push (sleep s t l) t l) l u in
                let y := ms s1 m0 in
                Some (setacc (admit (setM s1 m0 (Mon (own y) (rc y) (del u (entry y)) (sig y) (mask y))) u m0) t (Some i))
            | None => if block then Some (set_mask (push (sleep s t l) t l) l (t, k)) else Some s
            end
        end
      else None
  | Res, Go => Some (restore s t)
  | _, _ => None
  end.
Inductive reach : st -> Prop :=
| r_init : reach init
| r_step s t a s' : reach s -> step s t a = Some s' -> reach s'.
