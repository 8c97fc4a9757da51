(** C51: persistent maps. *)
From Coq Require Import ZArith List Bool Arith.
From Verif.PersistentMap Require Import Model Spec Proofs.
Import ListNotations.
Open Scope Z_scope.

(** Every history of creations, updates and reads on any versions, in any order, is defined and gives the answers
    of immutable maps. *)
Theorem C51_versions_are_immutable : forall (V : Type) (os : list (op V)), run initial os = Some (spec_run [] os).
Proof. exact (fun V os => run_spec os initial [] Inv_init). Qed.
Print Assumptions C51_versions_are_immutable.
(** In particular the answer for an old version does not depend on what was done since. *)
Theorem C51_old_version_unchanged : forall (V : Type) (os os' : list (op V)) x k,
  (x < length (fst (fold_left (fun s o => spec_step (fst s) o) os ([] : list (@fmap V), Handle))))%nat ->
  exists a b r, run initial (os ++ [Find x k]) = Some (a ++ [Val r]) /\
                run initial (os ++ os' ++ [Find x k]) = Some (b ++ [Val r]).
Proof.
  intros V os os' x k Hx.
  assert (A : forall p (ms : list (@fmap V)) (q : list (op V)), exists l, spec_run ms (p ++ q) =
     l ++ spec_run (fst (fold_left (fun s o => spec_step (fst s) o) p (ms, Handle))) q).
  { assert (G : forall p (ms : list (@fmap V)) (y : out V) (q : list (op V)), exists l, spec_run ms (p ++ q) =
     l ++ spec_run (fst (fold_left (fun s o => spec_step (fst s) o) p (ms, y))) q).
    { induction p as [|o p IH]; intros ms y q; [exists []; reflexivity|]. cbn [app spec_run fold_left fst].
      destruct (spec_step ms o) as [ms' z]. destruct (IH ms' z q) as [l Hl]. exists (z :: l). cbn. rewrite Hl. reflexivity. }
    intros. apply G. }
  assert (M : forall p (ms : list (@fmap V)) y x m, nth_error ms x = Some m ->
     nth_error (fst (fold_left (fun s o => spec_step (fst s) o) p (ms, y))) x = Some m).
  { induction p as [|o p IH]; intros ms y i m Hm; [exact Hm|]. cbn [fold_left fst].
    assert (E : nth_error (fst (spec_step ms o)) i = Some m).
    { assert (S : forall z, nth_error (ms ++ [z]) i = Some m).
      { intros z. rewrite nth_error_app1; auto. apply nth_error_Some. congruence. }
      destruct o as [|z ? ?|z ?|z ?|z ?|z|z]; cbn [spec_step]; try (destruct (nth_error ms z)); cbn [fst]; auto. }
    destruct (spec_step ms o) as [ms' z]. cbn [fst] in E. apply IH, E. }
  set (ms := fst (fold_left (fun s o => spec_step (fst s) o) os ([], Handle))) in *.
  destruct (nth_error ms x) as [m|] eqn:Em; [|apply nth_error_None in Em; exfalso; apply (Nat.lt_irrefl x); eapply Nat.lt_le_trans; eauto].
  destruct (A os [] [Find x k]) as [a Ha]. destruct (A os [] (os' ++ [Find x k])) as [b Hb]. fold ms in Ha, Hb.
  destruct (A os' ms [Find x k]) as [c Hc].
  exists a, (b ++ c), (lookup k m). rewrite !C51_versions_are_immutable, Ha, Hb, Hc. split.
  - cbn [spec_run spec_step]. rewrite Em. reflexivity.
  - cbn [spec_run spec_step]. rewrite (M os' ms Handle x m Em). cbn [spec_run]. rewrite app_assoc. reflexivity.
Qed.
Print Assumptions C51_old_version_unchanged.
Example C51_example :
  run initial [New; Set_ 0 1 10; Set_ 1 2 20; Set_ 1 1 11; Erase 2 1; Find 0 1; Find 1 1; Find 3 1; Find 4 1; Find 2 1; Size 2; Size 4; Count 3 2; Empty 0; Find 4 2]
  = Some [Handle; Handle; Handle; Handle; Handle; Val None; Val (Some 10); Val (Some 11); Val None; Val (Some 10); Num 2; Num 1; Num 0; Bool true; Val (Some 20)].
Proof. vm_compute. reflexivity. Qed.
