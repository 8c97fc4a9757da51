(** C95: throw, throwResume and try statements do what they mean *)
From Coq Require Import List Bool Arith Lia Permutation.
From Verif.Except Require Import Model Spec Proofs.
Import ListNotations.
(** a virtual cast succeeds exactly for the type and the types derived from it *)
Theorem C95_cast : forall e p, fits e p = true <-> takes e p.
Proof.
  intros e p. unfold fits, takes. rewrite andb_true_iff. enough (H : is_parent (fst p) (ty e) = true <-> List.In (fst p) (ty e)) by tauto. generalize (ty e). intros l. induction l as [|c l IH]; cbn [is_parent In]; [split; [discriminate|tauto]|].
  destruct (Nat.eqb_spec (fst p) c); [split; auto|]. rewrite IH. split; [auto|intros [Q|Q]; [congruence|auto]].
Qed.
Print Assumptions C95_cast.
(** what is run does not depend on the fuel *)
Theorem C95_deterministic : forall n m P s r1 r2, exec n P s = Some r1 -> exec m P s = Some r2 -> r1 = r2.
Proof.
  intros n m P s r1 r2 H1 H2. unfold exec in *. pose proof (tev_mono _ n (max n m) ltac:(lia) _ _ _ _ _ H1) as Q1. pose proof (tev_mono _ m (max n m) ltac:(lia) _ _ _ _ _ H2) as Q2. congruence.
Qed.
Print Assumptions C95_deterministic.
(** The generated code and the runtime do what the statements mean: the same events in the same order, the same end; and at the end no exception and no resume node is left, and each exception that was allocated was freed once *)
Theorem C95_refines : forall P s, (forall f, ok false false (P f) = true) -> ok false false s = true -> forall n o l, sev n P [] [] None s = Some (o, l, false) ->
  exists m, forall m', m <= m' -> exists o' g, exec m' P s = Some (o', g) /\ outp g = l /\
    match o with
    | Done => o' = Nrm /\ cur g = [] /\ top g = [] /\ Permutation (freed g) (seq 0 (fresh g))
    | Fail e => o' = Dead (Uncaught e)
    | _ => False
    end.
Proof.
  intros P s HP Ok n o l H. destruct (core P HP n [] [] None s false false Ok (Forall_nil _) o l H start None) as (m & o' & g & E & Po); [apply perm_nil|reflexivity|intros Q; discriminate|].
  exists m. intros m' L. exists o', g. split; [unfold exec; eapply tev_mono; eauto|]. destruct o as [| |e|e]; cbn [post] in Po.
  - destruct Po as [-> [K1 K2 K3 K4 K5]]. split; [exact K1|]. split; [reflexivity|]. split; [exact K3|]. split; [exact (top_kept _ _ _ _ _ _ _ _ E eq_refl)|]. unfold good in K5. rewrite K3 in K5. cbn [start cur map] in K5. rewrite app_nil_r in K5. exact K5.
  - destruct Po as (Z & _); discriminate.
  - destruct Po as (f & i & Z & _); discriminate.
  - destruct Po as [-> O]. split; [exact O|reflexivity].
Qed.
Print Assumptions C95_refines.
(** in any state of the runtime, under any try statements: code that raises an exception finds its way to the innermost clause around that takes it, with the exception on top and everything below untouched *)
Theorem C95_anywhere : forall P rs ts s, (forall f, ok false false (P f) = true) -> ok false false s = true -> okr rs -> forall n o l, sev n P rs ts None s = Some (o, l, false) ->
  forall g lx, good g -> top g = trh rs -> exists m o' g', tev m (fun f => tr (P f)) ts lx (tr s) g = Some (o', g') /\ outp g' = outp g ++ l /\
    match o with
    | Done => o' = Nrm /\ cur g' = cur g /\ top g' = top g
    | Raise e => exists f i a, search e ts = Some (f, i) /\ o' = Unw f /\ cur g' = (a, e, i) :: cur g /\ top g' = top g
    | Fail e => o' = Dead (Uncaught e)
    | Decl => False
    end.
Proof.
  intros P rs ts s HP Ok Rs n o l H g lx Go Tp. destruct (core P HP n rs ts None s false false Ok Rs o l H g lx Go Tp) as (m & o' & g' & E & Po); [intros Q; discriminate|].
  exists m, o', g'. split; [exact E|]. assert (T : dead o' = false -> top g' = top g) by (intros D; eapply top_kept; eauto). destruct o as [| |e|e]; cbn [post] in Po.
  - destruct Po as [-> [K1 K2 K3 K4 K5]]. auto.
  - destruct Po as (Z & _); discriminate.
  - destruct Po as (f & i & S1 & -> & O & N & G & [(a & C & _)|(Z & _)]); [|discriminate]. split; auto. exists f, i, a. auto.
  - destruct Po as [-> O]. auto.
Qed.
Print Assumptions C95_anywhere.
(** However a piece of code ends short of the end of the program, the stack of resume nodes is what it was; for all code, and all states *)
Theorem C95_resume_stack : forall n P ts lx c g o g', tev n P ts lx c g = Some (o, g') -> match o with Dead _ => False | _ => True end -> top g' = top g.
Proof. intros n P ts lx c g o g' H D. eapply top_kept; eauto. destruct o; auto; destruct D. Qed.
Print Assumptions C95_resume_stack.
(** the programs of C95_refines are all accepted by the compiler *)
Theorem C95_accepted : forall s, ok false false s = true -> accepts NoHandler s = true.
Proof.
  enough (G : forall s rt rr c, ok rt rr s = true -> (rt = true -> c = TerHandler) -> (rr = true -> c = ResHandler) -> accepts c s = true) by (intros s H; eapply G; eauto; discriminate).
  fix IH 1. intros [|k|a b|e| |e| |b hs f|f] rt rr c H R1 R2; cbn [ok accepts] in *; auto.
  - apply andb_true_iff in H. destruct H as [Ha Hb]. rewrite (IH a rt rr c), (IH b rt rr c); auto.
  - rewrite (R1 H). reflexivity.
  - rewrite (R2 H). reflexivity.
  - apply andb_true_iff in H. destruct H as [H Hf]. apply andb_true_iff in H. destruct H as [Hb Hh]. cbv zeta in Hb. apply andb_true_iff. split; [apply andb_true_iff; split|].
    + eapply IH; [exact Hb| |]; intros Q; apply andb_true_iff in Q; tauto.
    + clear Hb Hf. induction hs as [|[[[] p] h] hs IHh]; [reflexivity| |]; apply andb_true_iff in Hh; destruct Hh as [H1 H2]; apply andb_true_iff; (split; [eapply IH; [exact H1| |]; congruence|auto]).
    + destruct f as [f|]; [|reflexivity]. eapply IH; [exact Hf| |]; discriminate.
Qed.
Print Assumptions C95_accepted.
(** Programs that the compiler accepts and that do something else *)
Definition always (e : exn) : bool := true.
Definition catch (t : nat) (s : stmt) : kind * pat * stmt := (Term, (t, always), s).
Definition catchr (t : nat) (s : stmt) : kind * pat * stmt := (Res, (t, always), s).
Definition a := E 1 [1; 0]. Definition b := E 2 [2; 0]. Definition c := E 3 [3; 0]. Definition d := E 4 [4; 0].
Definition noP (f : nat) : stmt := Skip.
Definition differs (s : stmt) (want : list ev) (is : tout * list ev) : Prop :=
  accepts NoHandler s = true /\ (exists n x, sev n noP [] [] None s = Some (Done, want, x)) /\ (forall m r, exec m noP s = Some r -> (fst r, outp (snd r)) = is) /\ (exists m r, exec m noP s = Some r) /\ (Nrm, want) <> is.
Lemma differs_by s want is : accepts NoHandler s = true -> (exists x, sev 30 noP [] [] None s = Some (Done, want, x)) -> (exists g, exec 30 noP s = Some (fst is, g) /\ outp g = snd is) -> (Nrm, want) <> is -> differs s want is.
Proof.
  intros A (x & B) (g & C & D) N. split; [auto|]. split; [eauto|]. split; [|split; [eauto|auto]]. intros m r H. rewrite (C95_deterministic _ _ _ _ _ _ H C). cbn [fst snd]. rewrite D. destruct is; reflexivity.
Qed.
(** an exception that comes out of a finally clause leaves the one it supersedes behind; a rethrow in a clause around throws that one *)
Theorem C95_finally_refuted : differs (Try (Try (Throw a) [catch 1 (Seq (Try (Try (Throw c) [] (Some (Throw d))) [catch 4 Skip] None) Rethrow)] None) [catch 0 Skip] None)
  [Caught (Some a); Caught (Some d); Caught (Some a)] (Nrm, [Caught (Some a); Caught (Some d); Caught (Some c)]).
Proof. apply differs_by; [reflexivity|eexists; vm_compute; reflexivity|eexists; vm_compute; split; reflexivity|discriminate]. Qed.
Print Assumptions C95_finally_refuted.
(** or an exception on its way is exchanged for the one left behind, and caught by the wrong clause: c is thrown and there is a clause for it, but the clause for b is run, with b *)
Theorem C95_wrong_clause_refuted : differs (Try (Try (Throw c) [] (Some (Try (Try (Throw b) [] (Some (Throw d))) [catch 4 Skip] None))) [catch 3 (Out 1); catch 2 (Out 2)] None)
  [Caught (Some d); Caught (Some c); Printed 1] (Nrm, [Caught (Some d); Caught (Some b); Printed 2]).
Proof. apply differs_by; [reflexivity|eexists; vm_compute; reflexivity|eexists; vm_compute; split; reflexivity|discriminate]. Qed.
Print Assumptions C95_wrong_clause_refuted.
(** a rethrown exception that is caught within the clause that rethrows it is gone for the rest of the clause: another rethrow aborts *)
Theorem C95_rethrow_refuted : differs (Try (Try (Throw a) [catch 1 (Seq (Try Rethrow [catch 1 Skip] None) Rethrow)] None) [catch 1 Skip] None)
  [Caught (Some a); Caught (Some a); Caught (Some a)] (Dead Missing, [Caught (Some a); Caught (Some a)]).
Proof. apply differs_by; [reflexivity|eexists; vm_compute; reflexivity|eexists; vm_compute; split; reflexivity|discriminate]. Qed.
Print Assumptions C95_rethrow_refuted.
(** or takes the exception of a clause further out, which is deleted while it is on its way *)
Theorem C95_deleted_refuted : differs (Try (Try (Throw b) [catch 2 (Try (Throw a) [catch 1 (Seq (Try Rethrow [catch 1 Skip] None) Rethrow)] None)] None) [catch 0 Skip] None)
  [Caught (Some b); Caught (Some a); Caught (Some a); Caught (Some a)] (Dead Crash, [Caught (Some b); Caught (Some a); Caught (Some a)]).
Proof. apply differs_by; [reflexivity|eexists; vm_compute; reflexivity|eexists; vm_compute; split; reflexivity|discriminate]. Qed.
Print Assumptions C95_deleted_refuted.
(** throw; in a finally clause throws the exception on its way, not the one of the clause around *)
Theorem C95_rethrow_finally_refuted : differs (Try (Throw a) [catch 1 (Try (Try (Throw c) [] (Some (Try Rethrow [catch 0 Skip] None))) [catch 3 Skip] None)] None)
  [Caught (Some a); Caught (Some a); Caught (Some c)] (Nrm, [Caught (Some a); Caught (Some c); Caught None]).
Proof. apply differs_by; [reflexivity|eexists; vm_compute; reflexivity|eexists; vm_compute; split; reflexivity|discriminate]. Qed.
Print Assumptions C95_rethrow_finally_refuted.
(** throwResume; in a try block with catch clauses leaves the try block only: the exception counts as handled *)
Theorem C95_reresume_refuted : differs (Try (Try (Resume a) [catchr 1 (Try Reresume [catch 2 Skip] None)] None) [catchr 1 (Out 1)] None)
  [Handled a; Handled a; Printed 1] (Nrm, [Handled a]).
Proof. apply differs_by; [reflexivity|eexists; vm_compute; reflexivity|eexists; vm_compute; split; reflexivity|discriminate]. Qed.
Print Assumptions C95_reresume_refuted.
(** from tests/exceptions/terminate.cfa:87-107, interact.cfa:95-118, and a function that calls itself *)
Example C95_terminate_ex : let s := Try (Try (Throw a) [catch 1 (Seq (Out 1) (Seq (Try (Throw b) [catch 2 (Out 2)] None) Rethrow))] None) [catch 1 (Out 3); catch 2 (Out 4)] None in
  ok false false s = true /\ exists g, exec 30 noP s = Some (Nrm, g) /\ outp g = [Caught (Some a); Printed 1; Caught (Some b); Printed 2; Caught (Some a); Printed 3] /\ freed g = [1; 0].
Proof. split; [reflexivity|]. eexists. vm_compute. repeat split. Qed.
Example C95_interact_ex : let s := Try (Try (Try (Seq (Try (Resume b) [catch 1 (Out 1)] None) (Resume a)) [catchr 1 (Out 2)] None) [catchr 2 (Seq (Out 3) (Throw a))] None) [catchr 1 (Out 4)] None in
  ok false false s = true /\ exists g, exec 30 noP s = Some (Nrm, g) /\ outp g = [Handled b; Printed 3; Caught (Some a); Printed 1; Handled a; Printed 2].
Proof. split; [reflexivity|]. eexists. vm_compute. repeat split. Qed.
Example C95_call_ex : let P f := match f with 0 => Try (Call 1) [catchr 1 (Seq (Out 5) Reresume)] (Some (Out 6)) | 1 => Try (Resume a) [catch 2 Skip; catchr 1 Reresume] (Some (Out 7)) | _ => Skip end in
  exists g, exec 30 P (Try (Call 0) [catch 1 (Out 8)] (Some (Out 9))) = Some (Nrm, g) /\ outp g = [Handled a; Handled a; Printed 5; Printed 7; Printed 6; Caught (Some a); Printed 8; Printed 9].
Proof. eexists. vm_compute. repeat split. Qed.
