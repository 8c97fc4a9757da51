From Coq Require Import List Arith ZArith Bool Lia ZifyBool.
From Verif.Vector2 Require Import Model Spec Proofs.
Import ListNotations.

Section T.
Context {T : Type}.

(* Within the contract the vector is a sequence, its iterators are positions in it
   that stay with their elements, and no memory outside the buffer or never
   written is used. *)
Theorem C88_sequence : forall c l s r, 1 <= c -> specs (Seq [] c [] []) l = Some (s, r) -> exists v, steps (@new T c) l = Ok (v, r).
Proof. intros c l s r H S. destruct (steps_rep l (new c) _ s r (new_rep c H) S) as (v & E & _). eauto. Qed.

Lemma specs_app : forall l (s : @seqn T) m, specs s (l ++ m) = match specs s l with Some (s, r) => match specs s m with Some (s, q) => Some (s, r ++ q) | None => None end | None => None end.
Proof.
  induction l as [|o l IH]; intros s m; cbn [app specs]; [destruct (specs s m) as [[? ?]|]; reflexivity|]. destruct (spec s o) as [[s1 r1]|]; [|reflexivity]. rewrite IH.
  destruct (specs s1 l) as [[s2 q]|]; [|reflexivity]. destruct (specs s2 m) as [[? ?]|]; reflexivity.
Qed.

(* A permit sees the same element after an element was inserted or appended, also
   when the buffer is moved. *)
Theorem C88_permit_stays : forall c l s r n x o s' r', 1 <= c -> specs (Seq [] c [] []) l = Some (s, r) ->
  spec s (PermitVal n) = Some (s, Val x) -> (exists y, o = Push y) \/ (exists i y, o = Insert i y) -> spec s o = Some (s', r') ->
  exists v, steps (@new T c) (l ++ [o; PermitVal n]) = Ok (v, r ++ [Done; Val x]).
Proof.
  intros c l s r n x o s' r' H SS P O S'. eapply C88_sequence; [exact H|]. rewrite specs_app, SS. cbn [specs]. rewrite S'.
  assert (Q : r' = Done /\ spec s' (PermitVal n) = Some (s', Val x)); [|destruct Q as [-> Q]; rewrite Q; reflexivity].
  cbn [spec] in P. destruct (assoc (pms s) n) as [k|] eqn:A; [|discriminate]. destruct (nth_error (xs s) k) as [z|] eqn:X; [|discriminate]. injection P as ->.
  destruct O as [[y ->]|(i & y & ->)]; cbn [spec] in S'.
  - destruct (exs s); [|discriminate]. injection S' as <- <-. split; [reflexivity|]. cbn [spec pms xs]. rewrite A. rewrite nth_error_app1 by (apply nth_error_Some; congruence). rewrite X. reflexivity.
  - destruct (exs s); [|discriminate]. destruct (xs s) as [|a0 l0] eqn:XX; [discriminate|]. rewrite <- XX in *. destruct (_ && _) eqn:C in S'; [|discriminate]. injection S' as <- <-. split; [reflexivity|]. cbn [spec pms xs].
    apply andb_prop in C. destruct C as [C _]. set (j := Z.to_nat i) in *.
    assert (AM : assoc (map (fun p => (fst p, if j <=? snd p then S (snd p) else snd p)) (pms s)) n = Some (if j <=? k then S k else k)).
    { clear -A. unfold assoc in *. induction (pms s) as [|[m q] t IH]; cbn [map List.find fst snd] in *; [discriminate|]. destruct (m =? n); [injection A as ->; reflexivity|]. apply IH. exact A. }
    rewrite AM, insert_nth by lia. destruct (Nat.leb_spec j k).
    + destruct (Nat.ltb_spec (S k) j); [lia|]. destruct (Nat.eqb_spec (S k) j); [lia|]. replace (S k - 1) with k by lia. rewrite X. reflexivity.
    + destruct (Nat.ltb_spec k j); [|lia]. rewrite X. reflexivity.
Qed.

Lemma assoc_hd : forall A n (a : A) l, assoc ((n, a) :: l) n = Some a.
Proof. intros. unfold assoc. cbn [List.find fst]. rewrite Nat.eqb_refl. reflexivity. Qed.

(* Iterating from the origin visits all elements in order, if the vector is not full. *)
Definition loop (n k : nat) : list (@op T) := concat (repeat [MoveNext n; ExitVal n] k) ++ [MoveNext n].

Lemma loop_spec : forall n m (s : @seqn T) i t, length (xs s) < cap s -> exs s = (n, i) :: t ->
  let k := match i with None => 0 | Some k => S k end in (i = None \/ xs s <> []) -> length (xs s) = k + m ->
  exists s', specs s (loop n m) = Some (s', flat_map (fun x => [Bool true; Val x]) (skipn k (xs s)) ++ [Bool false]).
Proof.
  intros n. induction m as [|m IH]; intros s i t L E k NE LK; unfold loop in *; cbn [repeat concat app specs spec]; rewrite E, assoc_hd; (destruct (Nat.ltb_spec (length (xs s)) (cap s)); [|lia]); fold k.
  - assert (C : (match i, xs s with Some _, [] => false | _, _ => true end) = true) by (destruct i, (xs s); try reflexivity; destruct NE; congruence). rewrite C.
    destruct (Nat.ltb_spec k (length (xs s))); [lia|]. rewrite skipn_all2 by lia. eauto.
  - assert (C : (match i, xs s with Some _, [] => false | _, _ => true end) = true) by (destruct i, (xs s); try reflexivity; destruct NE; congruence). rewrite C.
    destruct (Nat.ltb_spec k (length (xs s))) as [K|]; [|lia]. cbn [spec exs xs cap pms]. rewrite assoc_hd.
    destruct (nth_error (xs s) k) as [x|] eqn:X; [|apply nth_error_None in X; lia].
    set (s1 := Seq (xs s) (cap s) ((n, Some k) :: drop ((n, i) :: t) n) (pms s)). destruct (IH s1 (Some k) (drop ((n, i) :: t) n)) as (s' & Q); cbn [s1 xs cap exs]; auto; try lia.
    { right. intros Z. rewrite Z in K. cbn in K. lia. }
    cbn [s1 xs] in Q. exists s'. rewrite Q. do 2 f_equal.
    assert (SK : skipn k (xs s) = x :: skipn (S k) (xs s)).
    { clear -X. revert X. generalize k. clear k. induction (xs s) as [|a l IH]; intros [|k] X; try discriminate; [injection X as ->; reflexivity|]. apply (IH k). exact X. }
    rewrite SK. reflexivity.
Qed.

Theorem C88_iteration : forall c l s r n, 1 <= c -> specs (Seq [] c [] []) l = Some (s, r) -> length (xs s) < cap s ->
  exists v, steps (@new T c) (l ++ Origin n :: loop n (length (xs s))) = Ok (v, r ++ Done :: flat_map (fun x => [Bool true; Val x]) (xs s) ++ [Bool false]).
Proof.
  intros c l s r n H S L. set (s1 := Seq (xs s) (cap s) ((n, None) :: exs s) (pms s)). destruct (loop_spec n (length (xs s)) s1 None (exs s)) as (s' & Q); cbn [s1 xs cap exs]; auto.
  eapply C88_sequence; [exact H|]. rewrite specs_app, S. cbn [specs]. cbn [spec]. fold s1. cbn [s1 xs] in Q. rewrite Q. reflexivity.
Qed.

(* -- outside it -- *)

(* Nothing can be inserted into an empty vector; *)
Theorem C88_insert_empty_refuted : forall c (x : T), 1 <= c -> steps (new c) [Insert 0%Z x] = Undefined.
Proof. intros c x H. cbn. unfold insert_before, make_room, capacity, len. cbn. rewrite repeat_length. destruct c; [lia|]. reflexivity. Qed.

(* a vector of capacity 0 cannot grow; *)
Theorem C88_capacity_zero_refuted : forall x : T, steps (new 0) [Push x] = Fails.
Proof. reflexivity. Qed.

(* the position after the last one is taken for an element, *)
Theorem C88_past_end_refuted : forall c (x : T), 2 <= c -> steps (new c) [Push x; Get 1%Z] = Undefined.
Proof.
  intros c x H. destruct c as [|[|c]]; [lia|lia|]. cbn. reflexivity.
Qed.

(* negative positions never work, *)
Theorem C88_negative_refuted : forall (v : @vec T) i, (i < 0)%Z -> step v (Get i) = Undefined \/ step v (Get i) = Hangs.
Proof. intros v i H. cbn [step]. unfold find. destruct (Z.ltb_spec i 0); [|lia]. destruct (len v =? 0); auto. Qed.

(* a full vector cannot be iterated over, *)
Theorem C88_iterate_full_refuted : forall c l s r n, 1 <= c -> specs (Seq [] c [] []) l = Some (s, r) -> length (xs s) = cap s ->
  steps (@new T c) (l ++ [Origin n; MoveNext n]) = Fails.
Proof.
  intros c l s r n H S L. destruct (steps_rep l (new c) _ s r (new_rep c H) S) as (v & E & R).
  assert (A : forall l (v v' : @vec T) q m, steps v l = Ok (v', q) -> steps v' m = Fails -> steps v (l ++ m) = Fails).
  { clear. induction l as [|o l IH]; intros v v' q m E F; cbn [app steps] in *; [injection E as <- <-; exact F|]. destruct (step v o) as [[v1 r1]| | |]; try discriminate. cbn [bind fst snd] in *.
    destruct (steps v1 l) as [[v2 q2]| | |] eqn:S; try discriminate. cbn [bind fst snd] in E. injection E as -> <-. rewrite (IH v1 v' q2 m S F). reflexivity. }
  eapply A; [exact E|]. cbn [steps step bind fst snd]. cbn [with_exits exits]. rewrite assoc_hd. unfold move_next. cbn [with_exits first end_]. rewrite (r_first _ _ R), (r_end _ _ R), L, Nat.eqb_refl.
  pose proof (r_pos _ _ R). destruct (xs s); [cbn in L; lia|]. reflexivity.
Qed.

(* and a permit is left behind when the insertion at the front fills the buffer. *)
Theorem C88_permit_left_refuted : forall a b : T, exists v, steps (new 2) [Push a; Permit 0 0%Z; PermitVal 0; Insert 0%Z b; PermitVal 0] = Ok (v, [Done; Done; Val a; Done; Val b]).
Proof. intros a b. eexists. cbn. reflexivity. Qed.

(* While an exit iterator is in use the vector refuses to grow, by an assertion. *)
Theorem C88_exit_refuses : forall c l s r o, 1 <= c -> specs (Seq [] c [] []) l = Some (s, r) -> exs s <> [] ->
  (exists y, o = Push y) \/ (exists i y, o = Insert i y) -> steps (@new T c) (l ++ [o]) = Fails.
Proof.
  intros c l s r o H SS N O. destruct (steps_rep l (new c) _ s r (new_rep c H) SS) as (v & E & R).
  assert (F : step v o = Fails).
  { pose proof (r_ex _ _ R) as X. destruct (exs s); [congruence|]. destruct O as [[y ->]|(i & y & ->)]; cbn [step]; unfold push_last, insert_before, make_room; rewrite X; reflexivity. }
  clear -E F. revert E. generalize (@new T c), r. induction l as [|a l IH]; intros w q E; cbn [app steps] in *.
  - injection E as -> _. rewrite F. reflexivity.
  - destruct (step w a) as [[w1 r1]| | |]; cbn [bind fst snd] in *; try discriminate. destruct (steps w1 l) as [[w2 q2]| | |] eqn:E2; cbn [bind fst snd] in E; try discriminate.
    injection E as -> _. rewrite (IH _ _ E2). reflexivity.
Qed.
End T.
Print Assumptions C88_exit_refuses.
Print Assumptions C88_sequence.
Print Assumptions C88_permit_stays.
Print Assumptions C88_iteration.
Print Assumptions C88_insert_empty_refuted.
Print Assumptions C88_capacity_zero_refuted.
Print Assumptions C88_past_end_refuted.
Print Assumptions C88_negative_refuted.
Print Assumptions C88_iterate_full_refuted.
Print Assumptions C88_permit_left_refuted.

(* Three elements in a buffer of four, a permit at 1, an insertion at 1, which
   fills it, one more, which moves it, a change seen through the permit; then a
   loop. *)
Definition demo : list (@op nat) :=
  [Push 10; Push 11; Push 12; Permit 7 1%Z; Insert 1%Z 98; PermitVal 7; Cap; Push 20; Cap; Set_ 2%Z 5; PermitVal 7; PermitEnd 7; Insert 5%Z 30] ++ Origin 1 :: loop 1 6 ++ [ExitEnd 1; Len].

Example C88_demo_ex : exists v, steps (new 4) demo =
  Ok (v, [Done; Done; Done; Done; Done; Val 11; Num 4; Done; Num 8; Done; Val 5; Done; Done; Done;
          Bool true; Val 10; Bool true; Val 98; Bool true; Val 5; Bool true; Val 12; Bool true; Val 20; Bool true; Val 30; Bool false; Done; Num 6]).
Proof. eexists. vm_compute. reflexivity. Qed.

Example C88_demo_spec_ex : exists s r, specs (Seq [] 4 [] []) demo = Some (s, r) /\ xs s = [10; 98; 5; 12; 20; 30] /\ cap s = 8.
Proof. do 2 eexists. split; [vm_compute; reflexivity|]. split; reflexivity. Qed.
