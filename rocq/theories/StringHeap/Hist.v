From Coq Require Import ZArith List Bool Lia ZifyBool Permutation.
From Verif.StringHeap Require Import Model Spec Proofs Ops Steps Assign.
Import ListNotations.
Open Scope Z_scope.

Definition nv (v : values) : nvalues := fun w => match w with Some x => v x | None => None end.
Lemma nv_upd : forall v x t w, nupd (nv v) (Some x) t w = nv (upd v x t) w.
Proof. intros v x t [y|]; unfold nupd, nv, upd; cbn [eqn]; auto. Qed.
Lemma rep_nv : forall h v x t, Rep h (nupd (nv v) (Some x) t) -> Rep h (nv (upd v x t)).
Proof. intros h v x t R. apply rep_ext with (nupd (nv v) (Some x) t); auto. intros w. apply nv_upd. Qed.
Lemma rep_text : forall h v x, Rep h (nv v) -> text h x = Ok (v x).
Proof.
  intros h v x R. unfold text. destruct (v x) as [t|] eqn:V.
  - destruct (rep_get h (nv v) (Some x) t R V) as (k & _ & FK & _ & _ & T & I). rewrite FK. unfold inside in I. destruct (r_bounds _ _ R).
    rewrite ok_in by lia. rewrite T. auto.
  - rewrite find_none; auto. apply rep_none with (nv v); auto.
Qed.
Lemma new_inv : forall W a size m, 0 <= a -> 0 <= size -> a + size <= 2 ^ 64 -> Inv W (new_heap a size m) (nv none).
Proof.
  intros W a size m A S L. split.
  - constructor; cbn [new_heap start fin ext init curr mem hs names map]; try constructor; cbn [new_heap start fin ext init curr]; try lia. intros [x|]; cbn; tauto.
  - cbn [new_heap start fin hs]. constructor. lia.
Qed.
Section S.
Variables (low : Z -> Z -> bool) (place : heap -> Z -> option Z).
Hypothesis G : good place.
Lemma step_rep : forall W h v o v1, fine W -> Inv W h (nv v) -> outside o -> (forall x, o <> NewEmpty x) -> effect v o = Some v1 ->
  step low place h o = NoMem \/ exists h1, step low place h o = Ok h1 /\ Rep h1 (nv v1).
Proof.
  intros W h v o v1 F IV O NE E. destruct o as [x l|x|x y i n|x l|x y|x y n|x l|x y|x]; cbn [effect outside step] in *; try tauto.
  - destruct (v x) eqn:V; [discriminate|]. injection E as <-.
    destruct (construct_ok low place G W h (nv v) (Some x) l F IV V) as [C|(h1 & C & [R _] & _)]; auto. right. exists h1. split; auto. apply rep_nv; auto.
  - exfalso. eapply NE. reflexivity.
  - destruct (v x) eqn:V; [discriminate|]. destruct (v y) as [t|] eqn:Y; [|discriminate]. destruct (Nat.leb_spec (i + n) (length t)) as [L|L]; [|discriminate]. injection E as <-.
    destruct (copy_rep h (nv v) (Some x) (Some y) t i n (proj1 IV) V Y L) as (h1 & k & C & R & _). right. exists h1. split; auto. apply rep_nv; auto.
  - destruct (v x) as [u|] eqn:V; [|discriminate]. injection E as <-.
    destruct (assign_bytes low place G W h (nv v) x u l F IV eq_refl V) as [C|(h1 & C & R & _)]; auto. right. exists h1. split; auto. apply rep_nv; auto.
  - destruct (v x) as [u|] eqn:V; [|discriminate]. destruct (v y) as [t|] eqn:Y; [|discriminate]. injection E as <-.
    destruct (assign_string_rep h (nv v) (Some x) (Some y) t u (proj1 IV) V Y) as (h1 & k & C & _ & _ & R). right. exists h1. split; auto. apply rep_nv; auto.
  - destruct (v x) as [u|] eqn:V; [|discriminate]. injection E as <-.
    destruct (append_rep low place G W h (nv v) (Some x) u l F IV V) as [C|(h1 & C & R)]; auto. right. exists h1. split; auto. apply rep_nv; auto.
  - destruct (v x) as [u|] eqn:V; [|discriminate]. injection E as <-.
    destruct (destroy_rep h (nv v) (Some x) u (proj1 IV) V) as [C R]. right. eexists. split; [exact C|]. apply rep_nv; auto.
Qed.
Lemma plain_tidy : forall h v o v1 h1, Inv same h (nv v) -> plain v o -> effect v o = Some v1 -> step low place h o = Ok h1 -> tidy same (fin h1) (start h1) (hs h1).
Proof.
  intros h v o v1 h1 IV P E S. destruct o as [x l|x|x y i n|x l|x y|x y n|x l|x y|x]; cbn [effect plain step] in *; try tauto.
  - destruct (v x) eqn:V; [discriminate|].
    destruct (construct_ok low place G same h (nv v) (Some x) l same_fine IV V) as [C|(h2 & C & [_ T] & _)]; congruence.
  - destruct (v x) eqn:V; [discriminate|]. destruct (v y) as [t|] eqn:Y; [|discriminate]. destruct P as [-> P]. rewrite (P t eq_refl) in *.
    apply (copy_same h (nv v) (Some x) (Some y) t h1 IV Y S).
  - destruct (v x) as [u|] eqn:V; [|discriminate].
    destruct (assign_bytes low place G same h (nv v) x u l same_fine IV eq_refl V) as [C|(h2 & C & _ & T)]; [congruence|]. assert (h2 = h1) as <- by congruence.
    apply T. intros. apply tidy_same_remove. auto.
  - destruct (v x) as [u|] eqn:V; [|discriminate]. destruct (v y) as [t|] eqn:Y; [|discriminate].
    apply (assign_string_same h (nv v) (Some x) (Some y) t u h1 IV V Y S).
  - destruct (v x) as [u|] eqn:V; [|discriminate]. destruct (destroy_rep h (nv v) (Some x) u (proj1 IV) V) as [C R]. rewrite C in S. injection S as <-.
    cbn [with_hs fin start hs]. apply tidy_same_remove. apply (proj2 IV).
Qed.
Lemma building_tidy : forall h v o v1 h1, Inv within h (nv v) -> building v o -> effect v o = Some v1 -> step low place h o = Ok h1 -> tidy within (fin h1) (start h1) (hs h1).
Proof.
  intros h v o v1 h1 IV P E S. destruct o as [x l|x|x y i n|x l|x y|x y n|x l|x y|x]; cbn [effect building step] in *; try tauto.
  - destruct (v x) eqn:V; [discriminate|].
    destruct (construct_ok low place G within h (nv v) (Some x) l within_fine IV V) as [C|(h2 & C & [_ T] & _)]; congruence.
  - destruct (v x) eqn:V; [discriminate|]. destruct (v y) as [t|] eqn:Y; [|discriminate]. destruct (Nat.leb_spec (i + n) (length t)) as [L|L]; [|discriminate].
    apply (copy_tidy h (nv v) (Some x) (Some y) t i n h1 IV Y L (P t eq_refl) S).
Qed.
Lemma plain_outside : forall v o, plain v o -> outside o /\ forall x, o <> NewEmpty x.
Proof. intros v []; cbn; intros; try tauto; split; auto; congruence. Qed.
Lemma building_outside : forall v o, building v o -> outside o /\ forall x, o <> NewEmpty x.
Proof. intros v []; cbn; intros; try tauto; split; auto; congruence. Qed.
Lemma plains_run : forall l h v v1, Inv same h (nv v) -> plains v l -> effects v l = Some v1 ->
  run low place h l = NoMem \/ exists h1, run low place h l = Ok h1 /\ Inv same h1 (nv v1).
Proof.
  induction l as [|o l IH]; intros h v v1 IV P E; cbn [plains effects run] in *; [right; exists h; split; auto; congruence|].
  destruct P as [P PL]. destruct (effect v o) as [v2|] eqn:EO; [|discriminate]. destruct (plain_outside _ _ P) as [O NE].
  destruct (step_rep same h v o v2 same_fine IV O NE EO) as [S|(h1 & S & R)]; [left; rewrite S; auto|]. rewrite S. cbn [bind]. apply (IH h1 v2 v1); auto.
  split; auto. eapply plain_tidy; eauto.
Qed.
Lemma builds_run : forall l h v v1, Inv within h (nv v) -> builds v l -> effects v l = Some v1 ->
  run low place h l = NoMem \/ exists h1, run low place h l = Ok h1 /\ Inv within h1 (nv v1).
Proof.
  induction l as [|o l IH]; intros h v v1 IV P E; cbn [builds effects run] in *; [right; exists h; split; auto; congruence|].
  destruct P as [P PL]. destruct (effect v o) as [v2|] eqn:EO; [|discriminate]. destruct (building_outside _ _ P) as [O NE].
  destruct (step_rep within h v o v2 within_fine IV O NE EO) as [S|(h1 & S & R)]; [left; rewrite S; auto|]. rewrite S. cbn [bind]. apply (IH h1 v2 v1); auto.
  split; auto. eapply building_tidy; eauto.
Qed.
(** the empty constructor *)
Lemma empty_text : forall h v x y, Rep h (nv v) -> v x = None -> exists h1, step low place h (NewEmpty x) = Ok h1 /\ text h1 y = Ok (upd v x (Some []) y).
Proof.
  intros h v x y R V. eexists. split; [reflexivity|]. pose proof (rep_text h v y R) as T. pose proof (rep_none h (nv v) (Some x) R V) as N.
  unfold text in *. cbn [with_hs start fin ext mem hs]. unfold upd. unfold find in *.
  assert (FA : forall f (l : list handle) k, List.find f (l ++ [k]) = match List.find f l with Some z => Some z | None => if f k then Some k else None end).
  { clear. induction l as [|z l IH]; intros k; cbn [List.find app]; auto. destruct (f z); auto. }
  rewrite FA. fold (find (Some y) (hs h)) in *. destruct (Nat.eqb_spec y x) as [->|D].
  - rewrite (find_none _ _ N). cbn [who eqn]. rewrite Nat.eqb_refl. cbn [adr len]. rewrite ok_zero. reflexivity.
  - destruct (find (Some y) (hs h)); auto. cbn [who eqn]. destruct (Nat.eqb_spec x y); [congruence|]. auto.
Qed.
Lemma last_text : forall W h v o v1 y, fine W -> Inv W h (nv v) -> outside o -> effect v o = Some v1 ->
  step low place h o = NoMem \/ exists h1, step low place h o = Ok h1 /\ text h1 y = Ok (v1 y).
Proof.
  intros W h v o v1 y F IV O E. assert (D : (exists x, o = NewEmpty x) \/ forall x, o <> NewEmpty x) by (destruct o; eauto; right; congruence).
  destruct D as [[x ->]|D].
  - cbn [effect] in E. destruct (v x) eqn:V; [discriminate|]. injection E as <-. right. apply empty_text; auto. apply (proj1 IV).
  - destruct (step_rep W h v o v1 F IV O D E) as [S|(h1 & S & R)]; auto. right. exists h1. split; auto. apply rep_text; auto.
Qed.
End S.
