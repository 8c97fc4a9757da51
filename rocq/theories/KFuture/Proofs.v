From Coq Require Import List Bool Arith Lia.
From Verif.KFuture Require Import Spec Model.
Import ListNotations.

Definition okx (x : pv) : Prop := match x with Armed | Ctx _ => True | _ => False end.
(** server not yet committed *)
Definition pre (v : spc) : Prop := match v with SIdle => True | SCas x => okx x | _ => False end.

Definition free_st (s : st) : Prop := (ptr s = Armed /\ pre (sv s)) \/ (ptr s = Fulfilled /\ sv s = SDone).
Definition reg_st (s : st) (k : nat) (r : reg) : Prop :=
  (ptr s = Ctx k /\ pre (sv s) /\ r = Registered k /\ os s k = false) \/
  (ptr s = Progress /\ sv s = SPost k /\ r = Registered k /\ os s k = false) \/
  (ptr s = Progress /\ sv s = SStore /\ r = Posted k /\ os s k = true) \/
  (ptr s = Fulfilled /\ sv s = SDone /\ r = Posted k /\ os s k = true).
Definition Inv (s : st) : Prop :=
  bad s = false /\ exists r, legal (log s) = Some r /\
  match cl s with
  | CIdle => freed s = 0 /\ r = NoReg /\ free_st s
  | CSet k e => freed s = 0 /\ r = NoReg /\ free_st s /\ e = Armed /\ os s k = false
  | CReg k => freed s = 0 /\ reg_st s k r
  | CSpin k => freed s = 0 /\ reg_st s k r /\ ptr s <> Ctx k
  | CWSpin k => freed s = 0 /\ reg_st s k r /\ os s k = true
  | CASpin => False
  | CGone => r = NoReg /\ ((ptr s = Abandoned /\ pre (sv s) /\ freed s = 0) \/ (sv s = SDone /\ freed s = 1))
  end.

Lemma setb_same : forall f k b, setb f k b k = b.
Proof. intros. unfold setb. now rewrite Nat.eqb_refl. Qed.
Lemma pv_eqb_eq : forall a b, pv_eqb a b = true <-> a = b.
Proof.
  intros a b. destruct a, b; cbn; split; try congruence; try (intros; discriminate); intros H.
  - apply Nat.eqb_eq in H. now subst.
  - inversion H. apply Nat.eqb_refl.
Qed.

Ltac fin := cbn [ptr sv cl os freed bad log legal rnext pre okx alive setb] in *; rewrite ?Nat.eqb_refl in *;
  cbn [negb orb] in *; intuition (try congruence; try discriminate).

Lemma step_inv : forall s a s', Inv s -> step false s a = Some s' -> Inv s'.
Proof.
  intros [p v c o f b l] a s' (B & r & L & H) E. cbn [bad log] in *. subst b.
  destruct a; cbn [step ptr sv cl os freed bad log] in E.
  - destruct c; try discriminate. destruct H as (F & R & S); cbn [ptr sv cl os freed bad log] in *. subst f r.
    unfold free_st in S; cbn [ptr sv] in S. destruct S as [[-> S]|[-> S]]; inversion E; subst; clear E; unfold Inv, touch;
      (split; [reflexivity|]); exists NoReg; unfold free_st; fin. now rewrite setb_same.
  - destruct c; try discriminate. destruct H as (F & H); cbn [ptr sv cl os freed bad log] in *. subst f.
    unfold reg_st in H; cbn [ptr sv os] in H.
    destruct H as [(-> & S & R & O)|[(-> & S & R & O)|[(-> & S & R & O)|(-> & S & R & O)]]]; cbn [pv_eqb] in E;
      rewrite ?Nat.eqb_refl in E; inversion E; subst; clear E; unfold Inv, touch; (split; [reflexivity|]).
    + exists NoReg. cbn [legal log]. rewrite L. unfold free_st. fin.
    + exists (Registered k). unfold reg_st. fin.
    + exists (Posted k). unfold reg_st. fin.
    + exists NoReg. cbn [legal log]. rewrite L. unfold free_st. fin.
  - destruct c; try discriminate. destruct (o k) eqn:O; [|discriminate]. inversion E; subst; clear E.
    destruct H as (F & H). unfold Inv, reg_st in *. split; [reflexivity|]. exists r. fin.
  - destruct c; try discriminate. destruct H as (F & R & S); cbn [ptr sv cl os freed bad log] in *. subst f r.
    unfold free_st in S; cbn [ptr sv] in S. destruct S as [[-> S]|[-> S]]; inversion E; subst; clear E; unfold Inv, touch;
      (split; [reflexivity|]); exists NoReg; fin.
  - destruct c; try discriminate. destruct v; try discriminate. destruct H as (F & R & S); cbn [ptr sv cl os freed bad log] in *.
    inversion E; subst; clear E. unfold Inv, touch; (split; [reflexivity|]); exists NoReg; unfold free_st; fin.
  - destruct c; try discriminate.
    + destruct H as (F & R & S & X & O); cbn [ptr sv cl os freed bad log] in *. subst f r e.
      unfold free_st in S; cbn [ptr sv] in S. destruct S as [[-> S]|[-> S]]; cbn [pv_eqb] in E; inversion E; subst; clear E;
        unfold Inv, touch; (split; [reflexivity|]).
      * exists (Registered k). cbn [legal log]. rewrite L. unfold reg_st. fin.
      * exists NoReg. unfold free_st. fin.
    + destruct H as (F & H & N); cbn [ptr sv cl os freed bad log] in *. subst f. unfold reg_st in H; cbn [ptr sv os] in H.
      destruct H as [(-> & S & R & O)|[(-> & S & R & O)|[(-> & S & R & O)|(-> & S & R & O)]]];
        inversion E; subst; clear E; unfold Inv, touch; (split; [reflexivity|]).
      * congruence.
      * exists (Registered k). unfold reg_st. fin.
      * exists (Posted k). unfold reg_st. fin.
      * exists NoReg. cbn [legal log]. rewrite L. unfold free_st. fin.
    + destruct H as (F & H & N); cbn [ptr sv cl os freed bad log] in *. subst f. unfold reg_st in H; cbn [ptr sv os] in H.
      destruct H as [(-> & S & R & O)|[(-> & S & R & O)|[(-> & S & R & O)|(-> & S & R & O)]]]; try congruence;
        inversion E; subst; clear E; unfold Inv, touch; (split; [reflexivity|]).
      * exists (Posted k). unfold reg_st. fin.
      * exists NoReg. cbn [legal log]. rewrite L. unfold free_st. fin.
    + destruct H.
  - destruct v as [|x|k| |]; cbn [ptr sv cl os freed bad log] in *.
    + destruct c; unfold free_st, reg_st in H; cbn [ptr sv cl os freed bad log] in H; try (exfalso; intuition (discriminate)).
      all: destruct p; try (exfalso; intuition (try discriminate; congruence)); inversion E; subst; clear E; unfold Inv, touch; cbn [bad freed log ptr sv cl os];
        (split; [try reflexivity; intuition (try discriminate; subst; reflexivity)|]); exists r; unfold free_st, reg_st; fin.
    + destruct (pv_eqb p x) eqn:Q.
      * apply pv_eqb_eq in Q. subst x.
        destruct c; unfold free_st, reg_st in H; cbn [ptr sv cl os freed bad log] in H; try (exfalso; intuition (discriminate)).
        all: destruct p; try (exfalso; cbn [pre okx] in H; intuition (try discriminate; congruence)); inversion E; subst; clear E; unfold Inv, touch; cbn [bad freed log ptr sv cl os];
          (split; [try reflexivity; intuition (try discriminate; subst; reflexivity)|]); exists r; unfold free_st, reg_st; fin.
      * destruct c; unfold free_st, reg_st in H; cbn [ptr sv cl os freed bad log] in H; try (exfalso; intuition (discriminate)).
        all: inversion E; subst; clear E; unfold Inv, touch; cbn [bad freed log ptr sv cl os];
          (split; [try reflexivity; intuition (try discriminate; subst; reflexivity)|]); exists r; unfold free_st, reg_st; fin.
    + destruct c; unfold free_st, reg_st in H; cbn [ptr sv cl os freed bad log pre] in H; try (exfalso; intuition (discriminate)).
      all: assert (K : k0 = k /\ r = Registered k) by (intuition (try discriminate; congruence)); destruct K as [-> ->];
        inversion E; subst; clear E; unfold Inv; cbn [bad alive]; rewrite Nat.eqb_refl; (split; [reflexivity|]);
        exists (Posted k); cbn [log legal]; rewrite L; cbn [rnext]; rewrite Nat.eqb_refl; (split; [reflexivity|]); unfold reg_st;
        cbn [ptr sv cl os freed]; rewrite setb_same; intuition (try discriminate; try congruence).
    + destruct c; unfold free_st, reg_st in H; cbn [ptr sv cl os freed bad log pre] in H; try (exfalso; intuition (discriminate)).
      all: inversion E; subst; clear E; unfold Inv, touch; cbn [bad freed log ptr sv cl os];
        (split; [intuition (try discriminate; subst; reflexivity)|]); exists r; unfold free_st, reg_st; fin.
    + discriminate.
Qed.
Lemma init_inv : Inv init.
Proof. split; [reflexivity|]. exists NoReg. cbn. unfold free_st. cbn. repeat split. left. auto. Qed.
Lemma reach_inv : forall s, reach false s -> Inv s.
Proof. intros s R. induction R as [|s a s' R IH E]; [exact init_inv|exact (step_inv _ _ _ IH E)]. Qed.

Lemma released_once : forall s, reach false s -> freed s <= 1 /\ (freed s = 1 -> cl s = CGone /\ sv s = SDone) /\
  (cl s = CGone -> sv s = SDone -> freed s = 1).
Proof.
  intros s R. destruct (reach_inv s R) as (_ & r & _ & H). unfold free_st, reg_st in H.
  destruct (cl s); intuition (try lia; try congruence).
  match goal with A : sv s = SDone, B : pre (sv s) |- _ => rewrite A in B; destruct B end.
Qed.
(** counting in a legal history *)
Definition isP (k : nat) (e : ev) : bool := match e with EPost j => j =? k | _ => false end.
Definition isR (k : nat) (e : ev) : bool := match e with EReg j => j =? k | _ => false end.
Definition isF (k : nat) (e : ev) : bool := match e with ERetract j b => (j =? k) && negb b | _ => false end.
Definition cnt (f : ev -> bool) (l : list ev) : nat := length (filter f l).
Definition reg1 (k : nat) (r : reg) : nat := match r with Registered j => if j =? k then 1 else 0 | _ => 0 end.
Lemma post_counts : forall k l r, legal l = Some r -> cnt (isR k) l = cnt (isP k) l + cnt (isF k) l + reg1 k r.
Proof.
  unfold cnt. intros k. induction l as [|e l IH]; intros r H; cbn [legal] in H.
  - inversion H. reflexivity.
  - destruct (legal l) as [r'|]; [|discriminate]. specialize (IH _ eq_refl).
    destruct e as [j|j|j b|j]; [| |destruct b|]; destruct r' as [|i|i]; cbn [rnext] in H; try discriminate;
      try (destruct (Nat.eqb_spec j i) as [Q|Q]; [|discriminate]); inversion H; subst; clear H;
      cbn [filter isR isP isF reg1 andb negb] in *; rewrite ?andb_false_r, ?andb_true_r;
      try (destruct (i =? k)); try (destruct (j =? k)); cbn [length] in *; lia.
Qed.
