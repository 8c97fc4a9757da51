(** Exceptions: the translation of throw and try statements, src/ControlStruct/ExceptTranslate.cpp:51-661, and the runtime, libcfa/src/exception.c:53-531, libcfa/src/exception.h:129-160, libcfa/src/virtual.c:21-38.
    Not modelled: virtual tables and contents of exceptions (an exception is a number and its type), concurrency (each stack has its own context), cancellation (the default operation of an exception that nobody catches ends the run), branches out of try statements other than those of exceptions, exceptions between coroutines. *)
From Coq Require Import List Bool Arith.
Import ListNotations.
(** A type is given by the chain of type ids from its own to its root, virtual.h:25-31. *)
Record exn := E { eid : nat; ty : list nat }.
(** __cfavir_is_parent, virtual.c:21-31 *)
Fixpoint is_parent (parent : nat) (child : list nat) : bool := match child with [] => false | c :: r => if parent =? c then true else is_parent parent r end.
(** what a clause asks for: its type and its condition (always true when there is none) *)
Definition pat := (nat * (exn -> bool))%type.
Inductive kind := Term | Res.
(** Statements. Throw e: throw e; Rethrow: throw; Resume e: throwResume e; Reresume: throwResume; Try b hs f: try b, its catch (Term) and catchResume (Res) clauses in order, its finally clause. Call f: a function without parameters *)
Inductive stmt := Skip | Out (n : nat) | Seq (a b : stmt) | Throw (e : exn) | Rethrow | Resume (e : exn) | Reresume | Try (b : stmt) (hs : list (kind * pat * stmt)) (f : option stmt) | Call (f : nat).
(** TranslateThrowsCore: which rethrows the compiler takes, ExceptTranslate.cpp:90-135 *)
Inductive ctx := NoHandler | TerHandler | ResHandler.
Fixpoint accepts (c : ctx) (s : stmt) : bool :=
  match s with
  | Seq a b => accepts c a && accepts c b
  | Rethrow => match c with TerHandler => true | _ => false end
  | Reresume => match c with ResHandler => true | _ => false end
  | Try b hs f =>
      accepts c b &&
      (fix go (hs : list (kind * pat * stmt)) := match hs with [] => true | (k, _, h) :: r => accepts (match k with Term => TerHandler | Res => ResHandler end) h && go r end) hs &&
      match f with None => true | Some f => accepts c f end
  | _ => true
  end.
(** The code that is generated. CHook: a finally hook, ExceptTranslate.cpp:519-554; CNode: a resume node, 433-517; CTerm: the call of __cfaehm_try_terminate, 244-303 and 383-431; CReturn: return false or true *)
Inductive code := CSkip | COut (n : nat) | CSeq (a b : code) | CThrow (e : exn) | CRethrow | CResume (e : exn) | CReturn (b : bool)
  | CHook (f b : code) | CNode (hs : list (pat * code)) (b : code) | CTerm (b : code) (hs : list (pat * code)) | CCall (f : nat).
(** TryMutatorCore: postvisit of TryStmt and of ThrowStmt, ExceptTranslate.cpp:583-653 *)
Fixpoint tr (s : stmt) : code :=
  match s with
  | Skip => CSkip
  | Out n => COut n
  | Seq a b => CSeq (tr a) (tr b)
  | Throw e => CThrow e
  | Rethrow => CRethrow                 (** ExceptTranslate.cpp:65-88 *)
  | Resume e => CResume e
  | Reresume => CReturn false           (** ExceptTranslate.cpp:556-565 *)
  | Call f => CCall f
  | Try b hs f =>
      let rs := (fix go (hs : list (kind * pat * stmt)) := match hs with [] => [] | (Res, p, h) :: r => (p, CSeq (tr h) (CReturn true)) :: go r | (Term, _, _) :: r => go r end) hs in
      let ts := (fix go (hs : list (kind * pat * stmt)) := match hs with [] => [] | (Term, p, h) :: r => (p, tr h) :: go r | (Res, _, _) :: r => go r end) hs in
      let inner := match rs with [] => tr b | _ => CNode rs (tr b) end in
      let inner := match ts with [] => inner | _ => CTerm inner ts end in
      match f with None => inner | Some f => CHook (tr f) inner end
  end.
(** What can be seen: output, the exception of a catch clause (None: a null pointer), the exception of a catchResume clause *)
Inductive ev := Printed (n : nat) | Caught (e : option exn) | Handled (e : exn).
(** The context of a stack: top_resume; current_exception with its list of nodes (address, exception, handler_index); the addresses used so far; the variables of catch clauses and how many there have been; the addresses freed; the events. *)
Record sg := G { top : list (list (pat * code)); cur : list (nat * exn * nat); fresh : nat; vars : nat -> option nat; nv : nat; freed : list nat; outp : list ev }.
Definition set_top (s : sg) t := G t (cur s) (fresh s) (vars s) (nv s) (freed s) (outp s).
Definition set_cur (s : sg) c := G (top s) c (fresh s) (vars s) (nv s) (freed s) (outp s).
Definition set_var (s : sg) v x := G (top s) (cur s) (fresh s) (fun i => if i =? v then x else vars s i) (nv s) (freed s) (outp s).
Definition say (s : sg) e := G (top s) (cur s) (fresh s) (vars s) (nv s) (freed s) (outp s ++ [e]).
(** how code ends: Unw f: unwinding to the call of __cfaehm_try_terminate number f (counted from the bottom of the stack); Dead: the program has ended: nobody catches the exception, no exception to rethrow (exception.c:250-254), or a null pointer was used *)
Inductive why := Uncaught (e : exn) | Missing | Crash.
Inductive tout := Nrm | Ret (b : bool) | Unw (f : nat) | Dead (w : why).
(** a matcher, ExceptTranslate.cpp:305-381: the number of the first clause that fits, or 0 *)
Definition fits (e : exn) (p : pat) : bool := is_parent (fst p) (ty e) && snd p e.
Fixpoint matcher (e : exn) (i : nat) (m : list pat) : nat := match m with [] => 0 | p :: r => if fits e p then i else matcher e (S i) r end.
(** the search phase over the calls of __cfaehm_try_terminate on the stack, the innermost first: exception.c:316-448 *)
Fixpoint search (e : exn) (ts : list (list pat)) : option (nat * nat) :=
  match ts with [] => None | m :: r => match matcher e 1 m with O => search e r | i => Some (length r, i) end end.
(** __cfaehm_begin_unwind, exception.c:248-288 *)
Definition begin_unwind (ts : list (list pat)) (s : sg) : tout * sg :=
  match cur s with
  | [] => (Dead Missing, s)
  | (a, e, _) :: r => match search e ts with Some (f, i) => (Unw f, set_cur s ((a, e, i) :: r)) | None => (Dead (Uncaught e), s) end
  end.
(** __cfaehm_throw_terminate, exception.c:290-295, with __cfaehm_allocate_exception, 133-156 *)
Definition throw (ts : list (list pat)) (e : exn) (s : sg) : tout * sg :=
  begin_unwind ts (G (top s) ((fresh s, e, 0) :: cur s) (S (fresh s)) (vars s) (nv s) (freed s) (outp s)).
(** __cfaehm_delete_exception, exception.c:159-183; None: runs off the list *)
Fixpoint unlink (a : nat) (l : list (nat * exn * nat)) : option (list (nat * exn * nat)) :=
  match l with [] => None | x :: r => if fst (fst x) =? a then Some r else match unlink a r with Some r' => Some (x :: r') | None => None end end.
Definition delete (a : nat) (s : sg) : option sg :=
  match unlink a (cur s) with Some c => Some (G (top s) c (fresh s) (vars s) (nv s) (freed s ++ [a]) (outp s)) | None => None end.
Definition dead (o : tout) : bool := match o with Dead _ => true | _ => false end.
(** Running code: n: fuel; P: the functions; ts: the matchers of the calls of __cfaehm_try_terminate on the stack; lx: the variable of the catch clause around *)
Fixpoint tev (n : nat) (P : nat -> code) (ts : list (list pat)) (lx : option nat) (c : code) (s : sg) : option (tout * sg) :=
  match n with
  | O => None
  | S n =>
    match c with
    | CSkip => Some (Nrm, s)
    | COut k => Some (Nrm, say s (Printed k))
    | CSeq a b => match tev n P ts lx a s with Some (Nrm, s1) => tev n P ts lx b s1 | r => r end
    | CThrow e => Some (throw ts e s)
    | CRethrow => match lx with Some v => Some (begin_unwind ts (set_var s v None)) | None => Some (Dead Crash, s) end
    | CReturn b => Some (Ret b, s)
    | CCall f => match tev n P ts None (P f) s with Some (Ret _, s1) => Some (Nrm, s1) | r => r end
    | CHook f b =>
        match tev n P ts lx b s with
        | None => None
        | Some (o, s1) => if dead o then Some (o, s1) else
            match tev n P ts lx f s1 with Some (Nrm, s2) | Some (Ret _, s2) => Some (o, s2) | r => r end
        end
    | CNode hs b =>                                                  (** exception.c:96-107 *)
        match tev n P ts lx b (set_top s (hs :: top s)) with
        | None => None
        | Some (o, s1) => Some (o, if dead o then s1 else set_top s1 (top s))
        end
    | CTerm b hs =>                                                  (** exception.c:494-531, ExceptTranslate.cpp:258-303, 383-431 *)
        match tev n P (map fst hs :: ts) lx b s with
        | Some (Nrm, s1) | Some (Ret _, s1) => Some (Nrm, s1)
        | Some (Unw f, s1) =>
            if f =? length ts then
              match cur s1 with
              | [] => Some (Dead Crash, s1)
              | (a, e, i) :: _ =>
                  match i with
                  | O => Some (Nrm, s1)
                  | S j => match nth_error hs j with
                      | None => Some (Nrm, s1)
                      | Some (p, h) =>
                          let v := nv s1 in
                          let x := is_parent (fst p) (ty e) in         (** the virtual cast, virtual.c:33-38 *)
                          let s2 := say (G (top s1) (cur s1) (fresh s1) (fun i => if i =? v then (if x then Some a else None) else vars s1 i) (S v) (freed s1) (outp s1)) (Caught (if x then Some e else None)) in
                          match tev n P ts (Some v) h s2 with
                          | None => None
                          | Some (o, s3) => if dead o then Some (o, s3) else
                              match vars s3 v with                    (** __cfaehm_cleanup_terminate, exception.c:238-240 *)
                              | None => Some (o, s3)
                              | Some a' => match delete a' s3 with Some s4 => Some (o, s4) | None => Some (Dead Crash, s3) end
                              end
                          end
                      end
                  end
              end
            else Some (Unw f, s1)
        | r => r
        end
    | CResume e =>                                                   (** __cfaehm_throw_resume, exception.c:69-90; the default operation throws e, exception.h:156-160 *)
        (fix loop (l : list (list (pat * code))) (s' : sg) : option (tout * sg) :=
           match l with
           | [] => Some (throw ts e (set_top s' (top s)))
           | hs :: r =>
               match find (fun h => fits e (fst h)) hs with
               | None => loop r (set_top s' r)
               | Some (_, h) =>
                   match tev n P ts None h (say (set_top s' r) (Handled e)) with
                   | None => None
                   | Some (Ret true, s1) => Some (Nrm, set_top s1 (top s))
                   | Some (Unw f, s1) => Some (Unw f, set_top s1 (top s))
                   | Some (Dead w, s1) => Some (Dead w, s1)
                   | Some (_, s1) => loop r s1
                   end
               end
           end) (top s) s
    end
  end.
Definition start : sg := G [] [] 0 (fun _ => None) 0 [] [].
(** a program: its functions and its main *)
Definition exec (n : nat) (P : nat -> stmt) (s : stmt) : option (tout * sg) := tev n (fun f => tr (P f)) [] None (tr s) start.
