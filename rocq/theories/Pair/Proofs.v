From Coq Require Import List Bool ZArith Lia.
From Verif.Pair Require Import Model Spec.
Import ListNotations.

Section P.
  Context {R S : Type} (r : ops R) (s : ops S) (LR : R -> R -> Prop) (LS : S -> S -> Prop).
  Hypothesis (HR : total r LR) (HS : total s LS).
  Lemma dec1 : forall x y : R, x = y \/ x <> y.
  Proof using HR. intros x y. destruct (eq r x y) eqn:E; [left|right]; [|intros H]; apply (t_eq _ _ HR) in E || apply (t_eq _ _ HR) in H; auto. congruence. Qed.
  Lemma lex_not : forall p q, ~ lex LR LS p q <-> lex LR LS q p /\ p <> q.
  Proof using HR HS.
    intros [a b] [c d]. unfold lex. cbn [fst snd]. split.
    - intros N. destruct (dec1 a c) as [->|D].
      + split.
        * right. split; auto. destruct (t_total _ _ HS b d); auto. exfalso. apply N. auto.
        * intros H. injection H as <-. apply N. right. split; auto. apply (t_refl _ _ HS).
      + split; [|congruence]. left. split; auto. destruct (t_total _ _ HR a c); auto. exfalso. apply N. auto.
    - intros ([(H1 & H2)|(H1 & H2)] & N) [(H3 & H4)|(H3 & H4)]; try congruence.
      + apply H4. apply (t_anti _ _ HR); auto.
      + apply N. subst. f_equal. apply (t_anti _ _ HS); auto.
  Qed.
  Lemma strict1 : forall a c, ~ LR c a <-> LR a c /\ a <> c.
  Proof using HR.
    intros a c. split.
    - intros N. split; [destruct (t_total _ _ HR a c); auto; contradiction|]. intros ->. apply N, (t_refl _ _ HR).
    - intros (H & D) L. apply D. apply (t_anti _ _ HR); auto.
  Qed.

  Lemma lex_total : total (pops r s) (lex LR LS).
  Proof using HR HS.
    constructor; cbn [pops eq ne lt le gt ge]; unfold peq, pne, plt, ple, pgt, pge.
    - intros p. right. split; auto. apply (t_refl _ _ HS).
    - intros [a b] [c d] [(H1 & H2)|(H1 & H2)] [(H3 & H4)|(H3 & H4)]; cbn [fst snd] in *; try congruence.
      + exfalso. apply H2. apply (t_anti _ _ HR); auto.
      + subst. f_equal. apply (t_anti _ _ HS); auto.
    - intros [a b] [c d] [e f] [(H1 & H2)|(H1 & H2)] [(H3 & H4)|(H3 & H4)]; unfold lex; cbn [fst snd] in *; subst.
      + left. split; [eapply (t_trans _ _ HR); eauto|]. intros ->. apply H4. apply (t_anti _ _ HR); auto.
      + left. auto.
      + left. auto.
      + right. split; auto. eapply (t_trans _ _ HS); eauto.
    - intros [a b] [c d]. unfold lex. cbn [fst snd]. destruct (dec1 a c) as [->|D].
      + destruct (t_total _ _ HS b d); auto.
      + destruct (t_total _ _ HR a c); auto.
    - intros [a b] [c d]. cbn [fst snd]. rewrite andb_true_iff, (t_eq _ _ HR), (t_eq _ _ HS).
      split; [intros (-> & ->); auto | intros H; injection H; auto].
    - intros [a b] [c d]. cbn [fst snd]. rewrite orb_true_iff, (t_ne _ _ HR), (t_ne _ _ HS).
      split; [intros [H|H] E; injection E; auto|]. intros H. destruct (dec1 a c) as [->|D]; auto. right. intros ->. auto.
    - intros [a b] [c d]. rewrite lex_not. unfold lex. cbn [fst snd].
      rewrite orb_true_iff, andb_true_iff, (t_eq _ _ HR), (t_lt _ _ HR), (t_lt _ _ HS), strict1.
      split.
      + intros [(H1 & H2)|(-> & H)]; [split; auto; congruence|]. split.
        * right. split; auto. destruct (t_total _ _ HS b d); auto; contradiction.
        * intros E. injection E as ->. apply H, (t_refl _ _ HS).
      + intros ([(H1 & H2)|(-> & H)] & N); [left; auto|]. right. split; auto. intros L. apply N. f_equal.
        apply (t_anti _ _ HS); auto.
    - intros [a b] [c d]. unfold lex. cbn [fst snd].
      rewrite orb_true_iff, andb_true_iff, (t_eq _ _ HR), (t_lt _ _ HR), (t_le _ _ HS), strict1. tauto.
    - intros [a b] [c d]. rewrite lex_not. unfold lex. cbn [fst snd].
      rewrite orb_true_iff, andb_true_iff, (t_eq _ _ HR), (t_gt _ _ HR), (t_gt _ _ HS), strict1.
      split.
      + intros [(H1 & H2)|(-> & H)]; [split; auto; congruence|]. split.
        * right. split; auto. destruct (t_total _ _ HS b d); auto; contradiction.
        * intros E. injection E as ->. apply H, (t_refl _ _ HS).
      + intros ([(H1 & H2)|(-> & H)] & N); [left; auto|]. right. split; auto. intros L. apply N. f_equal.
        apply (t_anti _ _ HS); auto.
    - intros [a b] [c d]. unfold lex. cbn [fst snd].
      rewrite orb_true_iff, andb_true_iff, (t_eq _ _ HR), (t_gt _ _ HR), (t_ge _ _ HS), strict1.
      intuition congruence.
  Qed.
End P.
