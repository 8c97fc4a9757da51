From Coq Require Import ZArith List Bool Arith Lia.
From Verif.Park Require Import Model.
From Verif.Once Require Import Spec Model.
Import ListNotations.
Open Scope nat_scope.

Definition isW (p : opc) : bool :=
  match p with OWin | OFunc | OStore | OPoison | OWalk _ | OUnpark _ _ => true | _ => false end.
Definition hdp (l : list nat) : tp := match l with [] => N0 | t :: _ => NT t end.
Definition link (s : st) (t : nat) : tp := match pc s t with OPushN e => e | _ => next s t end.
Fixpoint chain (s : st) (l : list nat) : Prop := match l with [] => True | t :: l => link s t = hdp l /\ chain s l end.
Definition pushed (s : st) (t : nat) : Prop :=
  ((exists e, pc s t = OPushN e) /\ next s t = N1 /\ tick s t = 0%Z) \/ (pc s t = OPark /\ tick s t = 0%Z) \/
  (pc s t = OBlocked /\ tick s t = (-1)%Z).
Definition loose (s : st) (t : nat) : Prop :=
  match pc s t with
  | OPushN _ | OBlocked => False
  | OPark => tick s t = 1%Z /\ head s = N1
  | OPushC e => tick s t = 0%Z /\ e <> N1 /\ next s t = N1
  | OPushR => tick s t = 0%Z /\ next s t = N1
  | _ => tick s t = 0%Z
  end.
Definition phase (s : st) (L : list nat) (x : sp) : Prop :=
  match fs s with
  | FArmed => (forall t, pc s t = OIdle \/ pc s t = OTry) /\ head s = N0 /\ L = [] /\ x = SNone
  | FInProgress =>
      (exists w, (forall t, isW (pc s t) = true -> t = w) /\
        match pc s w with
        | OWin => x = SNone /\ head s = hdp L
        | OFunc => x = Running w /\ head s = hdp L
        | OStore | OPoison => x = Complete (Some w) /\ head s = hdp L
        | OWalk p => x = Complete (Some w) /\ head s = N1 /\ p = hdp L
        | OUnpark t nx => x = Complete (Some w) /\ head s = N1 /\ exists L', L = t :: L' /\ nx = hdp L' /\ (pc s t = OPark \/ pc s t = OBlocked)
        | _ => False
        end) \/
      ((forall t, isW (pc s t) = false) /\ x = Complete None /\ head s = N1 /\ L = [])
  | FReady => False
  end.
Definition Inv (s : st) : Prop :=
  ab s = false /\ exists L x, legal (log s) = Some x /\ NoDup L /\ chain s L /\ (forall t, In t L -> pushed s t) /\
  (forall t, ~ In t L -> loose s t) /\ phase s L x.

Lemma upd_same : forall A (f : nat -> A) i x, upd f i x i = x.
Proof. intros. unfold upd. now rewrite Nat.eqb_refl. Qed.
Lemma upd_other : forall A (f : nat -> A) i j x, j <> i -> upd f i x j = f j.
Proof. intros A f i j x N. unfold upd. destruct (Nat.eqb_spec j i); [contradiction|reflexivity]. Qed.
Lemma tp_eqb_eq : forall a b, tp_eqb a b = true -> a = b.
Proof. intros [] []; cbn; try congruence. intros H. apply Nat.eqb_eq in H. now subst. Qed.

Lemma chain_ext : forall s s' L, (forall t, In t L -> link s' t = link s t) -> chain s L -> chain s' L.
Proof.
  intros s s'. induction L as [|t L IH]; intros H C; [exact I|]. destruct C as [C1 C2]. split.
  - rewrite H; [exact C1|now left].
  - apply IH; [intros u U; apply H; now right|exact C2].
Qed.

Definition sameat (s s' : st) (u : nat) : Prop := pc s' u = pc s u /\ next s' u = next s u /\ tick s' u = tick s u.
Lemma frame_list : forall s s' L, (forall u, In u L -> sameat s s' u) -> chain s L -> (forall u, In u L -> pushed s u) ->
  chain s' L /\ (forall u, In u L -> pushed s' u).
Proof.
  intros s s' L F C P. split.
  - apply (chain_ext s); [|exact C]. intros u U. destruct (F u U) as (A & B & _). unfold link. now rewrite A, B.
  - intros u U. destruct (F u U) as (A & B & D). unfold pushed. rewrite A, B, D. exact (P u U).
Qed.
Lemma loose_same : forall s s' u, sameat s s' u -> (head s = N1 -> head s' = N1) -> loose s u -> loose s' u.
Proof. intros s s' u (A & B & D) H Q. unfold loose in *. rewrite A, B, D. destruct (pc s u); intuition auto. Qed.
(** Frame: thread t, not on the list, moves; nobody else's fields change. *)
Lemma frame : forall s s' t L, ~ In t L -> (forall u, u <> t -> sameat s s' u) -> (head s = N1 -> head s' = N1) ->
  chain s L -> (forall u, In u L -> pushed s u) -> (forall u, ~ In u L -> loose s u) -> loose s' t ->
  chain s' L /\ (forall u, In u L -> pushed s' u) /\ (forall u, ~ In u L -> loose s' u).
Proof.
  intros s s' t L N F H C P Q T. destruct (frame_list s s' L) as [C' P']; auto.
  { intros u U. apply F. intros ->. contradiction. }
  split; [exact C'|]. split; [exact P'|].
  intros u U. destruct (Nat.eq_dec u t) as [->|M]; [exact T|]. exact (loose_same _ _ _ (F u M) H (Q u U)).
Qed.
(** Frame: thread t, on the list, moves to another on-list state with the same link. *)
Lemma frame_in : forall s s' t L, In t L -> (forall u, u <> t -> sameat s s' u) -> (head s = N1 -> head s' = N1) ->
  link s' t = link s t -> chain s L -> (forall u, In u L -> pushed s u) -> (forall u, ~ In u L -> loose s u) -> pushed s' t ->
  chain s' L /\ (forall u, In u L -> pushed s' u) /\ (forall u, ~ In u L -> loose s' u).
Proof.
  intros s s' t L N F H K C P Q T. split; [|split].
  - apply (chain_ext s); [|exact C]. intros u U. destruct (Nat.eq_dec u t) as [->|M]; [exact K|]. destruct (F u M) as (A & B & _).
    unfold link. now rewrite A, B.
  - intros u U. destruct (Nat.eq_dec u t) as [->|M]; [exact T|]. destruct (F u M) as (A & B & D).
    unfold pushed. rewrite A, B, D. exact (P u U).
  - intros u U. assert (M : u <> t) by (intros ->; contradiction). exact (loose_same _ _ _ (F u M) H (Q u U)).
Qed.

(** A non-winner moves between non-winner states and head and state stay: the phase stays. *)
Lemma phase_other : forall s s' t L x, phase s L x -> fs s' = fs s -> head s' = head s -> (forall u, u <> t -> pc s' u = pc s u) ->
  isW (pc s t) = false -> isW (pc s' t) = false ->
  (fs s = FArmed -> pc s' t = OIdle \/ pc s' t = OTry) ->
  (pc s t = OPark \/ pc s t = OBlocked -> In t L -> pc s' t = OPark \/ pc s' t = OBlocked) ->
  phase s' L x.
Proof.
  intros s s' t L x P F H O W W' A K. unfold phase in *. rewrite F, H. destruct (fs s).
  - destruct P as (P & Q). split; [|exact Q]. intros u. destruct (Nat.eq_dec u t) as [->|N]; [auto|]. rewrite (O u N). apply P.
  - destruct P as [(w & P & Q)|(P & Q)].
    + left. exists w. assert (N : w <> t) by (intros ->; destruct (pc s t); cbn in W; try discriminate; exact Q). split.
      * intros u U. destruct (Nat.eq_dec u t) as [->|M]; [congruence|]. rewrite (O u M) in U. exact (P u U).
      * rewrite (O w N). destruct (pc s w); auto. destruct Q as (Q1 & Q2 & L' & -> & Q3 & Q4).
        split; [exact Q1|]. split; [exact Q2|]. exists L'. split; [reflexivity|]. split; [exact Q3|].
        destruct (Nat.eq_dec t0 t) as [->|M]; [apply K; [exact Q4|now left]|]. rewrite (O _ M). exact Q4.
    + right. split; [|exact Q]. intros u. destruct (Nat.eq_dec u t) as [->|M]; [exact W'|]. rewrite (O u M). apply P.
  - exact P.
Qed.
Lemma phase_complete : forall s L x, phase s L x -> head s = N1 -> exists o, x = Complete o.
Proof.
  intros s L x P H. unfold phase in P. destruct (fs s).
  - destruct P as (_ & P & _). congruence.
  - destruct P as [(w & _ & Q)|(_ & Q & _)]; [|eauto].
    assert (hdp L <> N1) by (destruct L; discriminate).
    destruct (pc s w); try (destruct Q as [_ Q]; congruence); try (destruct Q as (-> & _); eauto); destruct Q.
  - destruct P.
Qed.
Lemma phase_armed_pc : forall s L x t, phase s L x -> (pc s t <> OIdle /\ pc s t <> OTry) -> fs s <> FArmed.
Proof. intros s L x t P [A B] F. unfold phase in P. rewrite F in P. destruct P as (P & _). destruct (P t); contradiction. Qed.

Ltac sf := cbn [fs head next tick pc ab log goto emit ret] in *.

Lemma phase_win : forall s L x t, phase s L x -> isW (pc s t) = true ->
  fs s = FInProgress /\ (forall u, isW (pc s u) = true -> u = t) /\ 
        match pc s t with
        | OWin => x = SNone /\ head s = hdp L
        | OFunc => x = Running t /\ head s = hdp L
        | OStore | OPoison => x = Complete (Some t) /\ head s = hdp L
        | OWalk p => x = Complete (Some t) /\ head s = N1 /\ p = hdp L
        | OUnpark u nx => x = Complete (Some t) /\ head s = N1 /\ exists L', L = u :: L' /\ nx = hdp L' /\ (pc s u = OPark \/ pc s u = OBlocked)
        | _ => False
        end.
Proof.
  intros s L x t P W. unfold phase in P. destruct (fs s).
  - destruct P as (P & _). destruct (P t) as [E|E]; rewrite E in W; discriminate.
  - destruct P as [(w & P & Q)|(P & _)]; [|rewrite P in W; discriminate]. assert (t = w) by auto. subst w. auto.
  - destruct P.
Qed.

Lemma not_in_isW : forall s L t, (forall u, In u L -> pushed s u) -> isW (pc s t) = true -> ~ In t L.
Proof.
  intros s L t P W U. apply P in U. destruct U as [((e & U) & _)|[(U & _)|(U & _)]]; rewrite U in W; discriminate.
Qed.
Lemma not_in_pc : forall s L t, (forall u, In u L -> pushed s u) ->
  match pc s t with OPushN _ | OPark | OBlocked => False | _ => True end -> ~ In t L.
Proof.
  intros s L t P W U. apply P in U. destruct U as [((e & U) & _)|[(U & _)|(U & _)]]; rewrite U in W; exact W.
Qed.

(** returning false: allowed once complete *)
Lemma legal_ret : forall l o t, legal l = Some (Complete o) -> legal (ERet t false :: l) = Some (Complete o).
Proof. intros l o t H. cbn [legal]. rewrite H. reflexivity. Qed.

Lemma at_upd : forall s s' t, (forall u, u <> t -> pc s' u = pc s u) -> (forall u, u <> t -> next s' u = next s u) ->
  (forall u, u <> t -> tick s' u = tick s u) -> forall u, u <> t -> sameat s s' u.
Proof. intros s s' t A B C u N. unfold sameat. auto. Qed.
Ltac others := let u := fresh in let N := fresh in intros u N; sf; rewrite ?upd_other by exact N; reflexivity.

(** A caller off the list and not the winner moves to another such state. *)
Lemma move : forall s s' t L x x', ab s' = false -> legal (log s') = Some x' -> NoDup L -> chain s L ->
  (forall u, In u L -> pushed s u) -> (forall u, ~ In u L -> loose s u) -> phase s L x -> x' = x ->
  ~ In t L -> (forall u, u <> t -> sameat s s' u) -> fs s' = fs s -> head s' = head s ->
  isW (pc s t) = false -> isW (pc s' t) = false -> (fs s = FArmed -> pc s' t = OIdle \/ pc s' t = OTry) ->
  loose s' t -> Inv s'.
Proof.
  intros s s' t L x x' A LG ND C P Q PH -> NI F Ef Eh W W' AR T. split; [exact A|]. exists L, x.
  assert (Hd : head s = N1 -> head s' = N1) by congruence.
  destruct (frame s s' t L NI F Hd C P Q T) as (C' & P' & Q').
  split; [exact LG|]. split; [exact ND|]. split; [exact C'|]. split; [exact P'|]. split; [exact Q'|].
  apply (phase_other s s' t); auto.
  - intros u M. apply (F u M).
  - intros _ U. contradiction.
Qed.
Lemma ret_inv : forall s t L x, ab s = false -> legal (log s) = Some x -> NoDup L -> chain s L ->
  (forall u, In u L -> pushed s u) -> (forall u, ~ In u L -> loose s u) -> phase s L x -> head s = N1 ->
  match pc s t with OPushR | OPushC _ => True | _ => False end -> Inv (ret s t false).
Proof.
  intros s t L x A LG ND C P Q PH H W. destruct (phase_complete _ _ _ PH H) as [o ->].
  assert (NI : ~ In t L) by (apply (not_in_pc s); [exact P|]; destruct (pc s t); auto).
  apply (move s _ t L (Complete o) (Complete o)); auto; try reflexivity; try (sf; rewrite ?upd_same; auto; fail).
  - exact (legal_ret _ o t LG).
  - apply at_upd; others.
  - destruct (pc s t); try contradiction; reflexivity.
  - unfold loose; sf. rewrite upd_same. specialize (Q t NI). unfold loose in Q. destruct (pc s t); try contradiction; tauto.
Qed.
(** The winner moves on; the list and everybody else stay. *)
Lemma win_move : forall s s' t L x x', ab s' = false -> legal (log s') = Some x' -> NoDup L -> chain s L ->
  (forall u, In u L -> pushed s u) -> (forall u, ~ In u L -> loose s u) -> phase s L x ->
  (forall u, u <> t -> sameat s s' u) -> fs s' = FInProgress -> (head s = N1 -> head s' = N1) ->
  isW (pc s t) = true -> loose s' t -> isW (pc s' t) = true ->
  match pc s' t with
  | OFunc => x' = Running t /\ head s' = hdp L
  | OStore | OPoison => x' = Complete (Some t) /\ head s' = hdp L
  | OWalk p => x' = Complete (Some t) /\ head s' = N1 /\ p = hdp L
  | OUnpark u nx => x' = Complete (Some t) /\ head s' = N1 /\ exists L', L = u :: L' /\ nx = hdp L' /\ (pc s u = OPark \/ pc s u = OBlocked)
  | _ => False
  end -> Inv s'.
Proof.
  intros s s' t L x x' A LG ND C P Q PH F Ef Hd W T W' G. split; [exact A|]. exists L, x'.
  pose proof (not_in_isW _ _ _ P W) as NI. destruct (frame s s' t L NI F Hd C P Q T) as (C' & P' & Q').
  split; [exact LG|]. split; [exact ND|]. split; [exact C'|]. split; [exact P'|]. split; [exact Q'|].
  destruct (phase_win _ _ _ _ PH W) as (_ & U & _). unfold phase. rewrite Ef. left. exists t. split.
  - intros u V. destruct (Nat.eq_dec u t) as [->|M]; [reflexivity|]. destruct (F u M) as (E & _). rewrite E in V. exact (U u V).
  - destruct (pc s' t); try discriminate W'; try contradiction; try exact G.
    destruct G as (G1 & G2 & L' & -> & G3 & G4). split; [exact G1|]. split; [exact G2|]. exists L'. split; [reflexivity|].
    split; [exact G3|]. assert (M : t0 <> t) by (intros ->; apply NI; now left). destruct (F t0 M) as (E & _). now rewrite E.
Qed.

Lemma step_inv : forall s t b s', Inv s -> step s t b = Some s' -> Inv s'.
Proof.
  intros s t b s' (A & L & x & LG & ND & C & P & Q & PH) E. unfold step in E. destruct (pc s t) eqn:PC.
  - (* OIdle *)
    assert (NI : ~ In t L) by (apply (not_in_pc s); [exact P|]; rewrite PC; exact I).
    assert (E' : s' = goto s t OTry) by (destruct (fs s) eqn:Fs; try congruence; unfold phase in PH; rewrite Fs in PH; destruct PH).
    subst s'. specialize (Q t NI) as T. unfold loose in T. rewrite PC in T.
    apply (move s _ t L x x); auto; try reflexivity; try (sf; rewrite ?upd_same; auto; fail).
    + apply at_upd; others.
    + now rewrite PC.
    + unfold loose; sf. now rewrite upd_same.
  - (* OTry *)
    assert (NI : ~ In t L) by (apply (not_in_pc s); [exact P|]; rewrite PC; exact I).
    specialize (Q t NI) as T. unfold loose in T. rewrite PC in T.
    destruct (fs s) eqn:Fs.
    + inversion E; subst s'; clear E. unfold phase in PH. rewrite Fs in PH. destruct PH as (PA & PH & -> & ->).
      split; [exact A|]. exists [], SNone. split; [exact LG|]. split; [constructor|]. split; [exact I|]. split; [intros u []|].
      split.
      * intros u _. destruct (Nat.eq_dec u t) as [->|N].
        -- unfold loose; sf. now rewrite upd_same.
        -- apply (loose_same s); [unfold sameat; sf; now rewrite upd_other by exact N|auto|]. apply Q. intros [].
      * unfold phase; sf. left. exists t. rewrite upd_same. split; [|auto].
        intros u. destruct (Nat.eq_dec u t) as [->|N]; [auto|]. rewrite upd_other by exact N.
        destruct (PA u) as [->| ->]; discriminate.
    + inversion E; subst s'; clear E.
      apply (move s _ t L x x); auto; try reflexivity; try (sf; rewrite ?upd_same; auto; fail).
      * apply at_upd; others.
      * now rewrite PC.
      * rewrite Fs. discriminate.
      * unfold loose; sf. now rewrite upd_same.
    + unfold phase in PH. rewrite Fs in PH. destruct PH.
  - (* OWin *)
    assert (W : isW (pc s t) = true) by now rewrite PC.
    destruct (phase_win _ _ _ _ PH W) as (Fs & _ & G). rewrite PC in G. destruct G as [-> G].
    pose proof (not_in_isW _ _ _ P W) as NI. specialize (Q t NI) as T. unfold loose in T. rewrite PC in T.
    inversion E; subst s'; clear E. apply (win_move s _ t L SNone (Running t)); auto; try (sf; auto; fail); try (unfold loose; sf; rewrite upd_same; auto).
    + sf. cbn [legal]. now rewrite LG.
    + apply at_upd; others.
  - (* OFunc *)
    assert (W : isW (pc s t) = true) by now rewrite PC.
    destruct (phase_win _ _ _ _ PH W) as (Fs & _ & G). rewrite PC in G. destruct G as [-> G].
    pose proof (not_in_isW _ _ _ P W) as NI. specialize (Q t NI) as T. unfold loose in T. rewrite PC in T.
    inversion E; subst s'; clear E. apply (win_move s _ t L (Running t) (Complete (Some t))); auto; try (sf; auto; fail); try (unfold loose; sf; rewrite upd_same; auto).
    + sf. cbn [legal]. rewrite LG. cbn [snext]. now rewrite Nat.eqb_refl.
    + apply at_upd; others.
  - (* OStore *)
    assert (W : isW (pc s t) = true) by now rewrite PC.
    destruct (phase_win _ _ _ _ PH W) as (Fs & _ & G). rewrite PC in G. destruct G as [-> G].
    pose proof (not_in_isW _ _ _ P W) as NI. specialize (Q t NI) as T. unfold loose in T. rewrite PC in T.
    inversion E; subst s'; clear E. apply (win_move s _ t L (Complete (Some t)) (Complete (Some t))); auto; try (sf; auto; fail); try (unfold loose; sf; rewrite upd_same; auto).
    apply at_upd; others.
  - (* OPoison *)
    assert (W : isW (pc s t) = true) by now rewrite PC.
    destruct (phase_win _ _ _ _ PH W) as (Fs & _ & G). rewrite PC in G. destruct G as [-> G].
    pose proof (not_in_isW _ _ _ P W) as NI. specialize (Q t NI) as T. unfold loose in T. rewrite PC in T.
    inversion E; subst s'; clear E. apply (win_move s _ t L (Complete (Some t)) (Complete (Some t))); auto; try (sf; auto; fail); try (unfold loose; sf; rewrite upd_same; auto).
    apply at_upd; others.
  - (* OWalk *)
    assert (W : isW (pc s t) = true) by now rewrite PC.
    destruct (phase_win _ _ _ _ PH W) as (Fs & UQ & G). rewrite PC in G. destruct G as (-> & Hd & ->).
    pose proof (not_in_isW _ _ _ P W) as NI. specialize (Q t NI) as T. unfold loose in T. rewrite PC in T.
    destruct L as [|u L']; cbn [hdp] in E.
    + inversion E; subst s'; clear E. split; [exact A|]. exists [], (Complete None).
      split; [sf; cbn [legal]; rewrite LG; cbn [snext]; now rewrite Nat.eqb_refl|]. split; [constructor|].
      split; [exact I|]. split; [intros v []|]. split.
      * intros v _. destruct (Nat.eq_dec v t) as [->|N].
        -- unfold loose; sf. now rewrite upd_same.
        -- apply (loose_same s); [unfold sameat; sf; now rewrite upd_other by exact N|auto|]. apply Q. intros [].
      * unfold phase; sf. rewrite Fs. right. split; [|auto]. intros v. destruct (Nat.eq_dec v t) as [->|N]; [now rewrite upd_same|].
        rewrite upd_other by exact N. destruct (isW (pc s v)) eqn:V; [|reflexivity]. apply UQ in V. contradiction.
    + destruct (next s u) eqn:NX.
      * inversion E; subst s'; clear E.
        apply (win_move s _ t (u :: L') (Complete (Some t)) (Complete (Some t))); auto; try (sf; auto; fail); try (unfold loose; sf; rewrite upd_same; auto); [apply at_upd; others|].
        split; [reflexivity|]. split; [exact Hd|]. exists L'. split; [reflexivity|].
        destruct (P u (or_introl eq_refl)) as [((e & U) & V & _)|U]; [congruence|].
        destruct C as [C _]. unfold link in C. destruct U as [(U & _)|(U & _)]; rewrite U in C; rewrite <- C; auto.
      * inversion E; subst s'; clear E. split; [exact A|]. exists (u :: L'), (Complete (Some t)). auto 10.
      * inversion E; subst s'; clear E.
        apply (win_move s _ t (u :: L') (Complete (Some t)) (Complete (Some t))); auto; try (sf; auto; fail); try (unfold loose; sf; rewrite upd_same; auto); [apply at_upd; others|].
        split; [reflexivity|]. split; [exact Hd|]. exists L'. split; [reflexivity|].
        destruct (P u (or_introl eq_refl)) as [((e & U) & V & _)|U]; [congruence|].
        destruct C as [C _]. unfold link in C. destruct U as [(U & _)|(U & _)]; rewrite U in C; rewrite <- C; auto.
  - (* OUnpark *)
    rename t0 into u.
    assert (W : isW (pc s t) = true) by now rewrite PC.
    destruct (phase_win _ _ _ _ PH W) as (Fs & UQ & G). rewrite PC in G. destruct G as (-> & Hd & L' & -> & -> & U).
    pose proof (not_in_isW _ _ _ P W) as NI. specialize (Q t NI) as T. unfold loose in T. rewrite PC in T.
    assert (M : u <> t) by (intros ->; apply NI; now left).
    inversion ND as [|? ? NU ND']; subst.
    assert (PU := P u (or_introl eq_refl)). destruct C as [CU C].
    assert (D : (pc s u = OPark /\ tick s u = 0%Z) \/ (pc s u = OBlocked /\ tick s u = (-1)%Z)).
    { destruct PU as [((e & V) & _)|V]; [destruct U; congruence|exact V]. }
    assert (NT' : ~ In t L') by (intros V; apply NI; now right).
    (* the common part *)
    assert (K : forall s2, ab s2 = false -> legal (log s2) = Some (Complete (Some t)) -> fs s2 = FInProgress -> head s2 = N1 ->
      (forall v, v <> u -> v <> t -> sameat s s2 v) -> pc s2 t = OWalk (hdp L') -> tick s2 t = 0%Z -> loose s2 u -> isW (pc s2 u) = false -> Inv s2).
    { intros s2 A2 LG2 F2 H2 S2 PT T2 LU WU. split; [exact A2|]. exists L', (Complete (Some t)).
      destruct (frame_list s s2 L') as [C2 P2]; auto.
      { intros v V. apply S2; intros ->; contradiction. }
      { intros v V. apply P. now right. }
      split; [exact LG2|]. split; [exact ND'|]. split; [exact C2|]. split; [exact P2|]. split.
      - intros v V. destruct (Nat.eq_dec v u) as [->|Vu]; [exact LU|]. destruct (Nat.eq_dec v t) as [->|Vt].
        + unfold loose. rewrite PT. exact T2.
        + apply (loose_same s); [auto|auto|]. apply Q. intros [X|X]; [congruence|contradiction].
      - unfold phase. rewrite F2. left. exists t. rewrite PT. split; [|auto].
        intros v V. destruct (Nat.eq_dec v u) as [->|Vu]; [congruence|]. destruct (Nat.eq_dec v t) as [->|Vt]; [reflexivity|].
        destruct (S2 v Vu Vt) as (X & _). rewrite X in V. exact (UQ v V). }
    unfold unpark_add, RUNNING, BLOCKED in E. destruct D as [(D1 & D2)|(D1 & D2)]; rewrite D2 in E; cbn in E; inversion E; subst s'; clear E.
    + apply K; sf; auto.
      * intros v Vu Vt. unfold sameat; sf. rewrite !upd_other by auto. auto.
      * now rewrite upd_same.
      * rewrite upd_other by auto. exact T.
      * unfold loose; sf. rewrite upd_other by exact M. rewrite D1, upd_same. auto.
      * rewrite upd_other by exact M. now rewrite D1.
    + apply K; sf; auto.
      * cbn [legal]. now rewrite LG.
      * intros v Vu Vt. unfold sameat; sf. rewrite !upd_other by auto. auto.
      * rewrite upd_other by auto. now rewrite upd_same.
      * rewrite upd_other by auto. exact T.
      * unfold loose; sf. rewrite !upd_same. reflexivity.
      * now rewrite upd_same.
  - (* OPush *)
    assert (NI : ~ In t L) by (apply (not_in_pc s); [exact P|]; rewrite PC; exact I).
    specialize (Q t NI) as T. unfold loose in T. rewrite PC in T. inversion E; subst s'; clear E.
    assert (NA : fs s <> FArmed) by (apply (phase_armed_pc s L x t PH); rewrite PC; split; discriminate).
    apply (move s _ t L x x); auto; try reflexivity; try (sf; rewrite ?upd_same; auto; fail).
    + apply at_upd; others.
    + now rewrite PC.
    + contradiction.
    + unfold loose; sf. rewrite !upd_same. auto.
  - (* OPushR *)
    assert (NI : ~ In t L) by (apply (not_in_pc s); [exact P|]; rewrite PC; exact I).
    specialize (Q t NI) as T. unfold loose in T. rewrite PC in T.
    assert (NA : fs s <> FArmed) by (apply (phase_armed_pc s L x t PH); rewrite PC; split; discriminate).
    destruct (head s) eqn:Hd; inversion E; subst s'; clear E.
    2: { apply (ret_inv s t L x); auto. now rewrite PC. }
    all: apply (move s _ t L x x); auto; try reflexivity; try (sf; rewrite ?upd_same; auto; fail); try contradiction;
      [apply at_upd; others|now rewrite PC|unfold loose; sf; rewrite !upd_same; destruct T; repeat split; auto; discriminate].
  - (* OPushC *)
    assert (NI : ~ In t L) by (apply (not_in_pc s); [exact P|]; rewrite PC; exact I).
    specialize (Q t NI) as T. unfold loose in T. rewrite PC in T. destruct T as (T & Ne & Nx).
    assert (NA : fs s <> FArmed) by (apply (phase_armed_pc s L x t PH); rewrite PC; split; discriminate).
    destruct (tp_eqb (head s) e && negb b) eqn:CAS.
    + apply andb_true_iff in CAS. destruct CAS as [CAS _]. apply tp_eqb_eq in CAS.
      inversion E; subst s'; clear E. split; [exact A|]. exists (t :: L), x.
      set (s2 := S_ (fs s) (NT t) (next s) (tick s) (upd (pc s) t (OPushN e)) (ab s) (log s)).
      assert (S2 : forall u, u <> t -> sameat s s2 u) by (apply at_upd; unfold s2; others).
      assert (H : head s = hdp L /\ exists w, (forall u, isW (pc s u) = true -> u = w) /\ w <> t /\
        match pc s w with OWin => x = SNone | OFunc => x = Running w | OStore | OPoison => x = Complete (Some w) | _ => False end /\ fs s = FInProgress).
      { unfold phase in PH. destruct (fs s); [contradiction| |destruct PH]. destruct PH as [(w & UQ & G)|(_ & _ & G & _)]; [|congruence].
        assert (w <> t) by (intros ->; rewrite PC in G; exact G).
        destruct (pc s w) eqn:PW; try destruct G; try (destruct H1; congruence).
        all: split; [assumption|]; exists w; rewrite PW; auto. }
      destruct H as (Hd & w & UQ & Wt & G & Fs).
      split; [exact LG|]. split; [constructor; assumption|].
      destruct (frame_list s s2 L) as [C2 P2]; auto.
      { intros u U. apply S2. intros ->. contradiction. }
      split.
      { split; [|exact C2]. unfold link, s2; sf. rewrite upd_same. congruence. }
      split.
      { intros u [<-|U]; [|exact (P2 u U)]. left. unfold s2; sf. rewrite upd_same. eauto. }
      split.
      { intros u U. assert (u <> t) by (intros ->; apply U; now left). apply (loose_same s); auto.
        - intros X. congruence.
        - apply Q. intros X. apply U. now right. }
      unfold phase, s2; sf. rewrite Fs. left. exists w. rewrite upd_other by exact Wt. split.
      { intros u U. destruct (Nat.eq_dec u t) as [->|N]; [rewrite upd_same in U; discriminate|]. rewrite upd_other in U by exact N. exact (UQ u U). }
      destruct (pc s w); try contradiction; auto.
    + destruct (head s) eqn:Hd; inversion E; subst s'; clear E.
      2: { apply (ret_inv s t L x); auto. now rewrite PC. }
      all: apply (move s _ t L x x); auto; try reflexivity; try (sf; rewrite ?upd_same; auto; fail); try contradiction;
        [apply at_upd; others|now rewrite PC|unfold loose; sf; rewrite !upd_same; repeat split; auto; discriminate].
  - (* OPushN *)
    assert (IN : In t L).
    { destruct (in_dec Nat.eq_dec t L) as [H|H]; [exact H|]. apply Q in H. unfold loose in H. rewrite PC in H. destruct H. }
    assert (PT := P t IN). destruct PT as [(_ & PT & TK)|[(PT & _)|(PT & _)]]; try congruence.
    inversion E; subst s'; clear E. split; [exact A|]. exists L, x. split; [exact LG|]. split; [exact ND|].
    set (s2 := S_ (fs s) (head s) (upd (next s) t e) (tick s) (upd (pc s) t OPark) (ab s) (log s)).
    assert (S2 : forall u, u <> t -> sameat s s2 u) by (apply at_upd; unfold s2; others).
    destruct (frame_in s s2 t L IN S2) as (C2 & P2 & Q2); auto.
    { unfold link, s2; sf. rewrite !upd_same, PC. reflexivity. }
    { right. left. unfold s2; sf. rewrite upd_same. auto. }
    split; [exact C2|]. split; [exact P2|]. split; [exact Q2|].
    apply (phase_other s s2 t); auto.
    + intros u N. apply (S2 u N).
    + now rewrite PC.
    + unfold s2; sf. now rewrite upd_same.
    + intros Fs. destruct (phase_armed_pc s L x t PH); [rewrite PC; split; discriminate|exact Fs].
    + intros _ _. left. unfold s2; sf. now rewrite upd_same.
  - (* OPark *)
    assert (NA : fs s <> FArmed) by (apply (phase_armed_pc s L x t PH); rewrite PC; split; discriminate).
    unfold park_sub, RUNNING, UNBLOCK in E.
    destruct (in_dec Nat.eq_dec t L) as [IN|NI].
    + assert (PT := P t IN). destruct PT as [((e & PT) & _)|[(_ & TK)|(PT & _)]]; try congruence.
      rewrite TK in E. cbn in E. inversion E; subst s'; clear E.
      split; [exact A|]. exists L, x. split; [exact LG|]. split; [exact ND|].
      match goal with |- chain ?x _ /\ _ => set (s2 := x) end.
      assert (S2 : forall u, u <> t -> sameat s s2 u) by (apply at_upd; unfold s2; others).
      destruct (frame_in s s2 t L IN S2) as (C2 & P2 & Q2); auto.
      { unfold link, s2; sf. rewrite !upd_same, PC. reflexivity. }
      { right. right. unfold s2; sf. rewrite !upd_same. auto. }
      split; [exact C2|]. split; [exact P2|]. split; [exact Q2|].
      apply (phase_other s s2 t); auto.
      * intros u N. apply (S2 u N).
      * now rewrite PC.
      * unfold s2; sf. now rewrite upd_same.
      * intros Fs. contradiction.
      * intros _ _. right. unfold s2; sf. now rewrite upd_same.
    + specialize (Q t NI) as T. unfold loose in T. rewrite PC in T. destruct T as (T & Hd).
      rewrite T in E. cbn in E. inversion E; subst s'; clear E. destruct (phase_complete _ _ _ PH Hd) as [o ->].
      apply (move s _ t L (Complete o) (Complete o)); auto; try reflexivity; try (sf; rewrite ?upd_same; auto; fail); try contradiction.
      * exact (legal_ret _ o t LG).
      * apply at_upd; others.
      * now rewrite PC.
      * unfold loose; sf. now rewrite !upd_same.
  - discriminate.
Qed.
Lemma init_inv : Inv init.
Proof.
  split; [reflexivity|]. exists [], SNone. split; [reflexivity|]. split; [constructor|]. split; [exact I|].
  split; [intros t []|]. split; [intros t _; reflexivity|]. cbn. auto.
Qed.
Lemma reach_inv : forall s, reach s -> Inv s.
Proof. intros s R. induction R as [|s t b s' R IH E]; [exact init_inv|exact (step_inv _ _ _ _ IH E)]. Qed.

Definition cnt (f : ev -> bool) (l : list ev) : nat := length (filter f l).
Lemma legal_counts : forall l x, legal l = Some x ->
  match x with
  | SNone => cnt is_start l = 0 /\ cnt is_ret l = 0 /\ cnt is_win l = 0
  | Running _ => cnt is_start l = 1 /\ cnt is_ret l = 0 /\ cnt is_win l = 0
  | Complete o => cnt is_start l = 1 /\ cnt is_win l = match o with Some _ => 0 | None => 1 end
  end.
Proof.
  unfold cnt. induction l as [|e l IH]; intros x H; cbn [legal] in H.
  - inversion H. cbn. auto.
  - destruct (legal l) as [y|]; [|discriminate]. specialize (IH _ eq_refl).
    destruct e as [t|t|t b]; [| |destruct b]; destruct y as [|t'|[t'|]]; cbn [snext] in H; try discriminate;
      try (destruct (t =? t'); [|discriminate]); inversion H; subst; clear H; cbn [filter is_start is_ret is_win length]; intuition lia.
Qed.
Lemma nobody_parked : forall s, reach s -> cnt is_win (log s) = 1 ->
  forall t, pc s t <> OBlocked /\ (pc s t = OPark -> exists s', step s t false = Some s' /\ pc s' t = OIdle).
Proof.
  intros s R Wn t. destruct (reach_inv s R) as (A & L & x & LG & ND & C & P & Q & PH).
  pose proof (legal_counts _ _ LG) as K.
  assert (L = []) as ->.
  { destruct x as [|w|[w|]]; try (exfalso; lia).
    - unfold phase in PH. destruct (fs s).
      + destruct PH as (_ & _ & H & _). exact H.
      + destruct PH as [(w & _ & G)|(_ & _ & _ & H)]; [|exact H]. exfalso. destruct (pc s w); try destruct G; congruence.
      + destruct PH. }
  specialize (Q t (fun x => x)). unfold loose in Q. split.
  - intros E. rewrite E in Q. exact Q.
  - intros E. rewrite E in Q. unfold step. rewrite E. destruct Q as [T _]. rewrite T. cbn. eexists. split; [reflexivity|].
    cbn. apply upd_same.
Qed.
(** the wake-up loop only ever waits for a thread that is about to write its link *)
Lemma walk_progress : forall s t, reach s -> isW (pc s t) = true ->
  exists s', step s t false = Some s' /\
    (s' = s -> exists u e s'', pc s u = OPushN e /\ step s u false = Some s'' /\ next s'' u <> N1).
Proof.
  intros s t R W. destruct (reach_inv s R) as (A & L & x & LG & ND & C & P & Q & PH).
  destruct (phase_win _ _ _ _ PH W) as (Fs & UQ & G).
  assert (NE : forall p, p <> pc s t -> forall s1, pc s1 = upd (pc s) t p -> s1 = s -> False).
  { intros p N s1 E1 E2. subst s1. apply N. rewrite E1. now rewrite upd_same. }
  unfold step. destruct (pc s t) eqn:PC; try discriminate.
  - eexists. split; [reflexivity|]. intros E. exfalso. refine (NE _ _ _ _ E); [|reflexivity]. discriminate.
  - eexists. split; [reflexivity|]. intros E. exfalso. refine (NE _ _ _ _ E); [|reflexivity]. discriminate.
  - eexists. split; [reflexivity|]. intros E. exfalso. refine (NE _ _ _ _ E); [|reflexivity]. discriminate.
  - eexists. split; [reflexivity|]. intros E. exfalso. refine (NE _ _ _ _ E); [|reflexivity]. discriminate.
  - destruct G as (-> & Hd & ->). destruct L as [|u L']; cbn [hdp].
    + eexists. split; [reflexivity|]. intros E. exfalso. refine (NE _ _ _ _ E); [|reflexivity]. discriminate.
    + destruct (next s u) eqn:NX.
      * eexists. split; [reflexivity|]. intros E. exfalso. refine (NE _ _ _ _ E); [|reflexivity]. discriminate.
      * eexists. split; [reflexivity|]. intros _. exists u. destruct C as [C _]. unfold link in C.
        destruct (P u (or_introl eq_refl)) as [((e & U) & _)|[(U & _)|(U & _)]].
        -- exists e. rewrite U. eexists. split; [reflexivity|]. split; [reflexivity|]. cbn. rewrite upd_same. rewrite U in C.
           rewrite C. destruct L'; discriminate.
        -- rewrite U, NX in C. destruct L'; discriminate.
        -- rewrite U, NX in C. destruct L'; discriminate.
      * eexists. split; [reflexivity|]. intros E. exfalso. refine (NE _ _ _ _ E); [|reflexivity]. discriminate.
  - destruct G as (-> & Hd & L' & -> & -> & U).
    assert (M : t0 <> t) by (intros ->; rewrite PC in U; destruct U; discriminate).
    assert (D : tick s t0 = 0%Z \/ tick s t0 = (-1)%Z).
    { destruct (P t0 (or_introl eq_refl)) as [(_ & _ & V)|[(_ & V)|(_ & V)]]; auto. }
    unfold unpark_add, RUNNING, BLOCKED. destruct D as [D|D]; rewrite D; cbn.
    + eexists. split; [reflexivity|]. intros E. exfalso. refine (NE (OWalk (hdp L')) _ _ _ E); [discriminate|reflexivity].
    + eexists. split; [reflexivity|]. intros E. exfalso. apply (f_equal log) in E. cbn in E.
      apply (f_equal (@length ev)) in E. cbn in E. lia.
Qed.
