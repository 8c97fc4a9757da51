(** Lemmas about per-thread program counters changed one at a time. *)
From Coq Require Import List Bool Arith Lia.
From Verif.Futex Require Import Spec.
Import ListNotations.
Definition upd {A} (f : nat -> A) (i : nat) (x : A) : nat -> A := fun j => if j =? i then x else f j.
Definition del (x : nat) (l : list nat) : list nat := filter (fun y => negb (y =? x)) l.
Lemma upd_same : forall A (f : nat -> A) i x, upd f i x i = x.
Proof. intros. unfold upd. now rewrite Nat.eqb_refl. Qed.
Lemma upd_other : forall A (f : nat -> A) i j x, j <> i -> upd f i x j = f j.
Proof. intros A f i j x N. unfold upd. destruct (Nat.eqb_spec j i); [contradiction|reflexivity]. Qed.
Lemma ex_upd : forall A (p : A -> bool) f t k, exclusive (fun u => p (f u)) -> (p k = true -> p (f t) = true \/ forall u, p (f u) = false) ->
  exclusive (fun u => p (upd f t k u)).
Proof.
  intros A p f t k E H u v. unfold upd. destruct (Nat.eqb_spec u t) as [U|U], (Nat.eqb_spec v t) as [V|V]; try congruence; intros X Y.
  - destruct (H X) as [Z|Z]; [subst; now apply E|rewrite Z in Y; discriminate].
  - destruct (H Y) as [Z|Z]; [subst; now apply E|rewrite Z in X; discriminate].
  - now apply E.
Qed.
Lemma some_upd : forall A (p : A -> bool) f t k, (p (f t) = true -> p k = true) -> (exists u, p (f u) = true) -> exists u, p (upd f t k u) = true.
Proof. intros A p f t k E [u H]. exists u. unfold upd. destruct (Nat.eqb_spec u t) as [->|]; auto. Qed.
Lemma none_upd : forall A (p : A -> bool) f t k, p k = false -> (forall u, p (f u) = false) -> forall u, p (upd f t k u) = false.
Proof. intros A p f t k E H u. unfold upd. destruct (u =? t); auto. Qed.
Lemma in_del : forall x l u, In u (del x l) <-> In u l /\ u <> x.
Proof. intros. unfold del. rewrite filter_In. destruct (Nat.eqb_spec u x); cbn; intuition (try discriminate). Qed.
Lemma nodup_del : forall x l, NoDup l -> NoDup (del x l).
Proof.
  intros x l H. unfold del. induction H as [|y l N H IH]; cbn; [constructor|]. destruct (negb (y =? x)); [|exact IH]. constructor; [|exact IH].
  intros X. apply filter_In in X. tauto.
Qed.
(** membership of sleepers is "pc satisfies p" *)
Lemma zz_upd : forall A (p : A -> bool) (z : list nat) f t k, (forall u, In u z <-> p (f u) = true) -> p (f t) = p k -> forall u, In u z <-> p (upd f t k u) = true.
Proof. intros A p z f t k H E u. unfold upd. destruct (Nat.eqb_spec u t) as [->|]; [rewrite H, E; reflexivity|apply H]. Qed.
Lemma ex_free : forall A (p : A -> bool) f t k, exclusive (fun u => p (f u)) -> p (f t) = true -> p k = false -> forall u, p (upd f t k u) = false.
Proof.
  intros A p f t k E H K u. unfold upd. destruct (Nat.eqb_spec u t) as [->|N]; [exact K|]. destruct (p (f u)) eqn:X; [|reflexivity]. destruct N. now apply E.
Qed.
