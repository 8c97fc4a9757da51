(* Thread-specific data of the pthread layer:
   /repo/libcfa/src/concurrency/pthread.cfa, lines 31-62 (the tables),
   203-240 (end of a thread), 513-598 (create, delete, set and get).

   The number of keys PTHREAD_KEYS_MAX is a parameter N, and so is the content
   of freshly allocated memory.  Pointers to data are numbers and 0 is NULL;
   destructors are numbers as well and 0 is NULL.  Threads are numbers.

   Each operation that runs between lock(key_lock) and unlock(key_lock) is one
   step.  The end of a thread is cut where the code releases key_lock to run a
   destructor, so that other threads may act there; what the destructor itself
   does to the tables appears as further steps of the thread that runs it.
   Simplifications: the reads outside key_lock that select the caller's own
   array are part of the step (only the caller writes that pointer); a thread
   number is not used again after its thread has ended. *)

From Coq Require Import List Bool Arith.
Import ListNotations.

(* pthread.cfa:38-42 struct pthread_keys; k_thr lists the threads whose entry
   is linked in [threads]. *)
Record key := mkKey { k_used : bool; k_dtor : nat; k_thr : list nat }.

(* pthread.cfa:31-35 struct pthread_values (the link is k_thr above). *)
Record ent := mkEnt { e_used : bool; e_val : nat }.

(* Where a thread is: running user code; in pthread_deletespecific_ about to
   look at entry i of attempt att; there with key_lock released, before the
   call through key->destructor; inside that call; finished and freed. *)
Inductive pc :=
  | Running
  | Scan (att i : nat) (called : bool)
  | Calling (att i : nat)
  | InDtor (att i : nat)
  | Gone.

(* One call of a destructor: which thread ran it, for which ended thread, key,
   destructor and argument. *)
Record call := mkCall { c_by : nat; c_for : nat; c_key : nat; c_dtor : nat; c_arg : nat }.

Record state := mkState {
  keys : nat -> key;
  data : nat -> option (nat -> ent);     (* cfaPthread.pthreadData *)
  st : nat -> pc;
  by_ : nat -> nat;                      (* the thread that joins this one *)
  calls : list call                      (* latest first *)
}.

Definition upd {A} (f : nat -> A) (x : nat) (v : A) : nat -> A :=
  fun y => if Nat.eqb y x then v else f y.

Definition set_keys s v := mkState v (data s) (st s) (by_ s) (calls s).
Definition set_data s v := mkState (keys s) v (st s) (by_ s) (calls s).
Definition set_st s v := mkState (keys s) (data s) v (by_ s) (calls s).

Inductive label :=
  | LCreate (d : nat)              (* pthread_key_create( &key, d ) *)
  | LDelete (k : nat)              (* pthread_key_delete( k ) *)
  | LSet (t k v : nat)             (* pthread_setspecific( k, v ) by t *)
  | LGet (t k : nat)               (* pthread_getspecific( k ) by t *)
  | LEnd (t j : nat)               (* t has ended and j, joining it, deletes it *)
  | LScan (t : nat)                (* j looks at the next entry of t *)
  | LCall (t : nat)                (* j calls the destructor *)
  | LBack (t : nat).               (* the destructor returns *)

Inductive res :=
  | RKey (k : nat) | ROk | REInval | REAgain
  | RVal (v : nat)
  | RCall (k d v : nat)
  | RGone
  | RNone.

(* Undef: a call through a NULL pointer or a list operation on freed memory.
   Stuck: the label is not possible here. *)
Inductive outcome := Ok (s : state) (r : res) | Undef | Stuck.

Section Code.
Variable N : nat.                  (* PTHREAD_KEYS_MAX *)
Variable junk : nat.               (* what uninitialised memory holds *)

(* pthread.cfa:515-523, the search loop of pthread_key_create. *)
Fixpoint find_free (ks : nat -> key) (i fuel : nat) : option nat :=
  match fuel with
  | 0 => None
  | S n => if k_used (ks i) then find_free ks (S i) n else Some i
  end.

(* pthread.cfa:513-526 pthread_key_create *)
Definition key_create (s : state) (d : nat) : outcome :=
  match find_free (keys s) 0 N with
  | Some i => Ok (set_keys s (upd (keys s) i (mkKey true d (k_thr (keys s i))))) (RKey i)
  | None => Ok s REAgain
  end.

(* Every linked entry lies in memory that is still allocated. *)
Definition list_ok (s : state) (k : nat) : bool :=
  forallb (fun t => match data s t with Some _ => true | None => false end) (k_thr (keys s k)).

(* pthread.cfa:544-546, p->in_use = false for every entry taken off the list. *)
Definition clear_entries (dt : nat -> option (nat -> ent)) (k : nat) (l : list nat) : nat -> option (nat -> ent) :=
  fun t => if existsb (Nat.eqb t) l
           then match dt t with
                | Some f => Some (upd f k (mkEnt false (e_val (f k))))
                | None => None
                end
           else dt t.

(* pthread.cfa:528-549 pthread_key_delete *)
Definition key_delete (s : state) (k : nat) : outcome :=
  if negb (Nat.ltb k N) || negb (k_used (keys s k)) then Ok s REInval
  else if negb (list_ok s k) then Undef
  else Ok (mkState (upd (keys s) k (mkKey false 0 []))
                   (clear_entries (data s) k (k_thr (keys s k)))
                   (st s) (by_ s) (calls s)) ROk.

(* pthread.cfa:555-564: allocate the array on first use. *)
Definition array_of (s : state) (t : nat) : nat -> ent :=
  match data s t with
  | Some f => f
  | None => fun _ => mkEnt false junk
  end.

(* pthread.cfa:551-580 pthread_setspecific *)
Definition setspecific (s : state) (t k v : nat) : outcome :=
  let f := array_of s t in
  if negb (Nat.ltb k N) || negb (k_used (keys s k))
  then Ok (set_data s (upd (data s) t (Some f))) REInval
  else if e_used (f k)
  then Ok (set_data s (upd (data s) t (Some (upd f k (mkEnt true v))))) ROk
  else if negb (list_ok s k) then Undef
  else Ok (mkState (upd (keys s) k (mkKey true (k_dtor (keys s k)) (k_thr (keys s k) ++ [t])))
                   (upd (data s) t (Some (upd f k (mkEnt true v))))
                   (st s) (by_ s) (calls s)) ROk.

(* pthread.cfa:582-598 pthread_getspecific *)
Definition getspecific (s : state) (t k : nat) : nat :=
  if negb (Nat.ltb k N) || negb (k_used (keys s k)) then 0
  else match data s t with
       | None => 0
       | Some f => if e_used (f k) then e_val (f k) else 0
       end.

(* pthread.cfa:236-240 the destructor of cfaPthread, run by the thread that
   joins (pthread.cfa:355-372, delete(p)); 203-208 start of
   pthread_deletespecific_. *)
Definition thread_end (s : state) (t j : nat) : outcome :=
  match data s t with
  | None => Ok (mkState (keys s) (data s) (upd (st s) t Gone) (upd (by_ s) t j) (calls s)) RGone
  | Some _ => Ok (mkState (keys s) (data s) (upd (st s) t (Scan 0 0 false)) (upd (by_ s) t j) (calls s)) RNone
  end.

(* pthread.cfa:208-231: one round of the inner loop, or its end. *)
Definition scan (s : state) (t att i : nat) (called : bool) : outcome :=
  match data s t with
  | None => Undef
  | Some f =>
    if Nat.ltb i N then
      if e_used (f i) then
        let f1 := upd f i (mkEnt false (e_val (f i))) in
        let ks := upd (keys s) i (mkKey (k_used (keys s i)) (k_dtor (keys s i))
                                        (remove Nat.eq_dec t (k_thr (keys s i)))) in
        if negb (list_ok s i) then Undef
        else if negb (Nat.eqb (e_val (f i)) 0) && negb (Nat.eqb (k_dtor (keys s i)) 0)
        then Ok (mkState ks (upd (data s) t (Some f1)) (upd (st s) t (Calling att i)) (by_ s) (calls s)) RNone
        else Ok (mkState ks (upd (data s) t (Some (upd f1 i (mkEnt false 0))))
                         (upd (st s) t (Scan att (S i) called)) (by_ s) (calls s)) RNone
      else Ok (set_st s (upd (st s) t (Scan att (S i) called))) RNone
    else if called && Nat.ltb (S att) 4     (* PTHREAD_DESTRUCTOR_ITERATIONS, lines 60-62 *)
    then Ok (set_st s (upd (st s) t (Scan (S att) 0 false))) RNone
    else Ok (mkState (keys s) (upd (data s) t None) (upd (st s) t Gone) (by_ s) (calls s)) RGone
  end.

(* pthread.cfa:223: key->destructor is read again, after key_lock was given up. *)
Definition call_dtor (s : state) (t att i : nat) : outcome :=
  match data s t with
  | None => Undef
  | Some f =>
    if Nat.eqb (k_dtor (keys s i)) 0 then Undef
    else Ok (mkState (keys s) (data s) (upd (st s) t (InDtor att i)) (by_ s)
                     (mkCall (by_ s t) t i (k_dtor (keys s i)) (e_val (f i)) :: calls s))
            (RCall i (k_dtor (keys s i)) (e_val (f i)))
  end.

(* pthread.cfa:224-227 *)
Definition back (s : state) (t att i : nat) : outcome :=
  match data s t with
  | None => Undef
  | Some f => Ok (mkState (keys s) (upd (data s) t (Some (upd f i (mkEnt (e_used (f i)) 0))))
                          (upd (st s) t (Scan att (S i) true)) (by_ s) (calls s)) RNone
  end.

Definition step (s : state) (l : label) : outcome :=
  match l with
  | LCreate d => key_create s d
  | LDelete k => key_delete s k
  | LSet t k v => match st s t with Running => setspecific s t k v | _ => Stuck end
  | LGet t k => match st s t with Running => Ok s (RVal (getspecific s t k)) | _ => Stuck end
  | LEnd t j => match st s t, st s j with
                | Running, Running => if Nat.eqb t j then Stuck else thread_end s t j
                | _, _ => Stuck
                end
  | LScan t => match st s t with Scan a i c => scan s t a i c | _ => Stuck end
  | LCall t => match st s t with Calling a i => call_dtor s t a i | _ => Stuck end
  | LBack t => match st s t with InDtor a i => back s t a i | _ => Stuck end
  end.

(* pthread.cfa:44-49: no key in use, every list empty (static storage). *)
Definition init : state :=
  mkState (fun _ => mkKey false 0 []) (fun _ => None) (fun _ => Running) (fun _ => 0) [].

(* A run: the labels and what each of them gave back. *)
Inductive run : state -> list (label * res) -> state -> Prop :=
  | run_nil : forall s, run s [] s
  | run_cons : forall s l r s1 tr s2,
      step s l = Ok s1 r -> run s1 tr s2 -> run s ((l, r) :: tr) s2.

(* Executes a list of labels; for the examples. *)
Fixpoint exec (s : state) (ls : list label) : option (list res) * outcome :=
  match ls with
  | [] => (Some [], Ok s RNone)
  | l :: ls' =>
      match step s l with
      | Ok s1 r => let '(rs, o) := exec s1 ls' in (option_map (cons r) rs, o)
      | o => (None, o)
      end
  end.
End Code.
