(** C100 Implicit constructor and destructor calls for members *)
From Coq Require Import List Bool Arith.
From Verif.MemberCalls Require Import Model Spec Proofs.
Import ListNotations.
(** On every path of an accepted constructor, the members for which the body has no call are constructed first, in the order of their declaration *)
Theorem C100_first cons members body body' t r : constructor cons members body = Some body' -> runs body' t r ->
  exists t', t = map EInit (filter (fun m => cons m && negb (existsb (handles m) body)) members) ++ t' /\ runs body t' r.
Proof. apply implicit_first. Qed.
Print Assumptions C100_first.
(** and nothing is lost of the body *)
Theorem C100_body cons members body body' t r : constructor cons members body = Some body' -> runs body t r ->
  runs body' (map EInit (filter (fun m => cons m && negb (existsb (handles m) body)) members) ++ t) r.
Proof.
  intros C R. unfold constructor in C. destruct (rejected members body); [discriminate|]. injection C as <-. rewrite implicit_map, front_eq. apply runs_front. eauto.
Qed.
Print Assumptions C100_body.
Theorem C100_implicit_once cons members body body' t r m : constructor cons members body = Some body' -> NoDup members -> In m members -> cons m = true -> existsb (handles m) body = false -> runs body' t r ->
  inits m t = 1 /\ before_use m t.
Proof. apply implicit_once. Qed.
Print Assumptions C100_implicit_once.
(** The full statement is that of C100_implicit_once for every member: it holds when the calls are statements of the body itself, at most one for the member, none using the member as its own argument *)
Theorem C100_once_partial cons members body body' t r m : constructor cons members body = Some body' -> NoDup members -> In m members -> cons m = true ->
  top body = true -> forallb clean body = true -> times m body <= 1 -> runs body' t r ->
  inits m t = 1 /\ before_use m t.
Proof. apply explicit_once. Qed.
Print Assumptions C100_once_partial.
(** struct S { A a; B b; C c; };  void ?{}(S & this) { use(this.a); if (p) return; ... } with (this.b){ this.a, this.c } *)
Definition body1 := [SInit 1 [0; 2]; SUse 1; SIf [SUse 0; SRet] [SLoop [SUse 2]]; SUse 1].
Example C100_once_ex : constructor (fun _ => true) [0; 1; 2] body1 = Some (SInit 0 [] :: SInit 2 [] :: body1) /\ top body1 = true /\ forallb clean body1 = true /\ times 1 body1 = 1
  /\ runs (SInit 0 [] :: SInit 2 [] :: body1) [EInit 0; EInit 2; EUse 0; EUse 2; EInit 1; EUse 1; EUse 0] true.
Proof.
  repeat split.
  apply (runs_cons _ _ [EInit 0]); [apply (run_init 0 [])|]. apply (runs_cons _ _ [EInit 2]); [apply (run_init 2 [])|].
  apply (runs_cons _ _ [EUse 0; EUse 2; EInit 1]); [apply (run_init 1 [0; 2])|]. apply (runs_cons _ _ [EUse 1]); [constructor|].
  apply runs_ret. apply run_then. apply (runs_cons _ _ [EUse 0]); [constructor|]. apply runs_ret. constructor.
Qed.
(** a use before the explicit call is rejected, also as an argument of the call for another member *)
Example C100_rejects : constructor (fun _ => true) [0; 1] [SUse 0; SInit 0 []] = None /\ constructor (fun _ => true) [0; 1] [SInit 1 [0]; SInit 0 []] = None
  /\ constructor (fun _ => true) [0; 1] [SLoop [SUse 1]; SDeleg] = None.
Proof. repeat split. Qed.
(** In general the explicit calls leave members unconstructed or construct them twice *)
Definition bad_member (body : list stmt) (m : nat) : Prop :=
  exists body' t r, constructor (fun _ => true) [0; 1] body = Some body' /\ runs body' t r /\ (inits m t <> 1 \/ ~ before_use m t).
Theorem C100_branch_refuted : exists body, bad_member body 0 /\ (exists body' t, constructor (fun _ => true) [0; 1] body = Some body' /\ runs body' t false /\ inits 0 t = 0 /\ In (EUse 0) t).
Proof.
  exists [SIf [SInit 0 []] []; SUse 0].
  assert (R : runs [SInit 1 []; SIf [SInit 0 []] []; SUse 0] [EInit 1; EUse 0] false).
  { apply (runs_cons _ _ [EInit 1]); [apply (run_init 1 [])|]. apply (runs_cons _ _ []); [apply run_else; constructor|]. apply (runs_cons _ _ [EUse 0]); constructor. }
  split.
  - exists [SInit 1 []; SIf [SInit 0 []] []; SUse 0], [EInit 1; EUse 0], false. repeat split; auto.
  - exists [SInit 1 []; SIf [SInit 0 []] []; SUse 0], [EInit 1; EUse 0]. repeat split; auto. right. now left.
Qed.
Print Assumptions C100_branch_refuted.
Theorem C100_return_refuted : bad_member [SIf [SRet] []; SInit 0 []] 0.
Proof.
  exists [SInit 1 []; SIf [SRet] []; SInit 0 []], [EInit 1], true. repeat split.
  - apply (runs_cons _ _ [EInit 1]); [apply (run_init 1 [])|]. apply runs_ret. apply run_then. apply runs_ret. constructor.
  - left. discriminate.
Qed.
Print Assumptions C100_return_refuted.
Theorem C100_twice_refuted : bad_member [SInit 0 []; SInit 0 []] 0 /\ bad_member [SDeleg; SInit 0 []] 0 /\ bad_member [SDeleg; SDeleg] 1 /\ bad_member [SLoop [SInit 0 []]] 0.
Proof.
  repeat split.
  - exists [SInit 1 []; SInit 0 []; SInit 0 []], [EInit 1; EInit 0; EInit 0], false. repeat split; [|left; discriminate].
    apply (runs_cons _ _ [EInit 1]); [apply (run_init 1 [])|]. apply (runs_cons _ _ [EInit 0]); [apply (run_init 0 [])|]. apply (runs_cons _ _ [EInit 0] []); [apply (run_init 0 [])|constructor].
  - exists [SDeleg; SInit 0 []], [EDeleg; EInit 0], false. repeat split; [|left; discriminate].
    apply (runs_cons _ _ [EDeleg]); [constructor|]. apply (runs_cons _ _ [EInit 0] []); [apply (run_init 0 [])|constructor].
  - exists [SDeleg; SDeleg], [EDeleg; EDeleg], false. repeat split; [|left; discriminate].
    apply (runs_cons _ _ [EDeleg]); [constructor|]. apply (runs_cons _ _ [EDeleg] []); constructor.
  - exists [SInit 1 []; SLoop [SInit 0 []]], [EInit 1], false. repeat split; [|left; discriminate].
    apply (runs_cons _ _ [EInit 1]); [apply (run_init 1 [])|]. apply (runs_cons _ _ [] []); constructor.
Qed.
Print Assumptions C100_twice_refuted.
(** The call for a member is seen before its own arguments: a member may be its own argument *)
Theorem C100_self_refuted : bad_member [SInit 0 [0]] 0 /\ top [SInit 0 [0]] = true /\ times 0 [SInit 0 [0]] = 1.
Proof.
  repeat split. exists [SInit 1 []; SInit 0 [0]], [EInit 1; EUse 0; EInit 0], false. repeat split.
  - apply (runs_cons _ _ [EInit 1]); [apply (run_init 1 [])|]. apply (runs_cons _ _ [EUse 0; EInit 0] []); [apply (run_init 0 [0])|constructor].
  - right. intros H. specialize (H [EInit 1] [EInit 0] eq_refl). inversion H.
Qed.
Print Assumptions C100_self_refuted.
(** Destructors: the members without a call are destroyed after the body, on every path, in the reverse order of their declaration *)
Theorem C100_destructor_order cons intr members body :
  rev (destructor cons intr members body) = filter (fun m => (cons m && negb (intr m)) && negb (existsb (handles m) body)) (rev members).
Proof.
  rewrite destructor_members. unfold front. induction members as [|m l IH]; [reflexivity|]. cbn [filter rev]. rewrite filter_app, <- IH. cbn [filter].
  destruct ((cons m && negb (intr m)) && negb (existsb (handles m) body)); cbn [rev]; [reflexivity|now rewrite app_nil_r].
Qed.
Print Assumptions C100_destructor_order.
Theorem C100_destroyed_partial cons intr members body t r m : NoDup members -> In m members -> cons m = true -> intr m = false ->
  (existsb (handles m) body = false \/ top body = true /\ times m body <= 1) -> runs body t r ->
  inits m (t ++ map EInit (rev (destructor cons intr members body))) = 1.
Proof. apply destroyed_once. Qed.
Print Assumptions C100_destroyed_partial.
Example C100_destroyed_ex : destructor (fun _ => true) (Nat.eqb 3) [0; 1; 2; 3] [SUse 0; SInit 1 [0]; SIf [SRet] []] = [0; 2] /\ top [SUse 0; SInit 1 [0]; SIf [SRet] []] = true.
Proof. split; reflexivity. Qed.
Theorem C100_undestroyed_refuted : exists body t r, runs body t r /\ inits 0 (t ++ map EInit (rev (destructor (fun _ => true) (fun _ => false) [0; 1] body))) = 0.
Proof. exists [SIf [SInit 0 []] []], [], false. split; [|reflexivity]. apply (runs_cons _ _ [] []); [apply run_else; constructor|constructor]. Qed.
Print Assumptions C100_undestroyed_refuted.
