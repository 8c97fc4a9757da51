From Coq Require Import List Arith Bool Lia.
From Verif.FilterCombos Require Import Model Spec.
Import ListNotations.

Section P.
Context {T St O : Type} (append : St -> T -> St * bool) (backtrack : St -> St) (finalize : St -> O).
Context (ok : list T -> bool) (fin : list T -> O) (rep : St -> list T -> Prop).
Context (CK : checker append backtrack finalize ok fin rep).
Notation loop := (loop append backtrack finalize). Notation unwind := (unwind backtrack).

Fixpoint enum (p : list T) (qs : list (list T)) : list (list T) :=
  match qs with
  | [] => [p]
  | q :: r => flat_map (fun x => if ok (p ++ [x]) then enum (p ++ [x]) r else []) q
  end.
Definition after (qs : list (list T)) (fuel : nat) (ip : list nat) (it : St) (out : list O) : option (list O * St) :=
  let (inds', it3) := unwind qs ip it in
  match inds' with [] => Some (out, it3) | _ => loop fuel qs inds' it3 out end.

Lemma skipn_nth {A} n (l : list A) : n < length l -> exists x, nth_error l n = Some x /\ skipn n l = x :: skipn (S n) l.
Proof.
  revert l; induction n as [|n IH]; intros [|y l] H; cbn in *; try lia; [eauto|]. destruct (IH l ltac:(lia)) as (x & H1 & H2). eauto.
Qed.
Lemma row : forall rest q pre qs, qs = pre ++ q :: rest -> (forall x, In x rest -> x <> []) ->
  forall n j p ip it out, length q - j = n -> j < length q -> length ip = length pre -> rep it p ->
  exists k it', (forall fuel, loop (k + fuel) qs (j :: ip) it out =
      after qs fuel ip it' (out ++ map fin (flat_map (fun x => if ok (p ++ [x]) then enum (p ++ [x]) rest else []) (skipn j q))))
    /\ rep it' p.
Proof.
  induction rest as [|q2 rest IHr]; intros q pre qs Eqs Hne.
  - induction n as [|n IHn]; intros j p ip it out Hn Hj Hip Hrep; [lia|].
    destruct (skipn_nth j q Hj) as (x & Ex & Es). rewrite Es. cbn [flat_map].
    destruct (ck_append _ _ _ _ _ _ CK it p x Hrep) as [A1 A2].
    assert (Eq : nth_error qs (length ip) = Some q).
    { rewrite Eqs, Hip, nth_error_app2 by lia. rewrite Nat.sub_diag. reflexivity. }
    assert (El : Nat.eqb (length ip + 1) (length qs) = true).
    { rewrite Eqs, app_length. cbn. apply Nat.eqb_eq. lia. }
    (* state and output after this element *)
    assert (ST : exists it2 o2, (forall f, loop (S f) qs (j :: ip) it out =
        (if Nat.ltb (S j) (length q) then loop f qs (S j :: ip) it2 o2 else after qs f ip it2 o2)) /\ rep it2 p /\
        o2 = out ++ map fin (if ok (p ++ [x]) then [p ++ [x]] else [])).
    { cbn [Model.loop]. rewrite Eq, Ex. destruct (append it x) as [it1 okb]; cbn [fst snd] in *. subst okb. rewrite El.
      rewrite andb_false_r. destruct (ok (p ++ [x])) eqn:Eo.
      - exists (backtrack it1), (out ++ [finalize it1]). split; [reflexivity|]. split; [eapply ck_backtrack; eauto|].
        cbn. rewrite (ck_finalize _ _ _ _ _ _ CK _ _ A2). auto.
      - exists it1, out. split; [reflexivity|]. split; auto. cbn. rewrite app_nil_r. auto. }
    destruct ST as (it2 & o2 & L & R2 & Eo2). destruct (Nat.ltb_spec (S j) (length q)) as [Hlt|Hge].
    + destruct (IHn (S j) p ip it2 o2 ltac:(lia) Hlt Hip R2) as (k & it' & K1 & K2). exists (S k), it'. split; auto.
      intros fuel. cbn [Nat.add]. rewrite L, K1, Eo2, map_app, app_assoc. reflexivity.
    + exists 1, it2. split; auto. intros fuel. cbn [Nat.add]. rewrite L, Eo2.
      rewrite (skipn_all2 q) by lia. cbn [flat_map]. rewrite app_nil_r. reflexivity.
  - induction n as [|n IHn]; intros j p ip it out Hn Hj Hip Hrep; [lia|].
    destruct (skipn_nth j q Hj) as (x & Ex & Es). rewrite Es. cbn [flat_map].
    destruct (ck_append _ _ _ _ _ _ CK it p x Hrep) as [A1 A2].
    assert (Eq : nth_error qs (length ip) = Some q).
    { rewrite Eqs, Hip, nth_error_app2 by lia. rewrite Nat.sub_diag. reflexivity. }
    assert (Enth : queue_len qs (length ip) = length q).
    { unfold queue_len. f_equal. apply nth_error_nth with (d := []) in Eq. exact Eq. }
    assert (El : Nat.eqb (length ip + 1) (length qs) = false).
    { rewrite Eqs, app_length. cbn. apply Nat.eqb_neq. lia. }
    assert (ST : exists k it2, (forall f, loop (S k + f) qs (j :: ip) it out =
        (let o2 := out ++ map fin (if ok (p ++ [x]) then enum (p ++ [x]) (q2 :: rest) else []) in
         if Nat.ltb (S j) (length q) then loop f qs (S j :: ip) it2 o2 else after qs f ip it2 o2)) /\ rep it2 p).
    { cbn [Nat.add Model.loop]. rewrite Eq, Ex. destruct (append it x) as [it1 okb]; cbn [fst snd] in *. subst okb. rewrite El.
      rewrite andb_true_r. destruct (ok (p ++ [x])) eqn:Eo.
      - assert (Hq2 : 0 < length q2). { assert (q2 <> []) by (apply Hne; left; auto). destruct q2; cbn; [congruence|lia]. }
        destruct (IHr q2 (pre ++ [q]) qs) with (n := length q2 - 0) (j := 0) (p := p ++ [x]) (ip := j :: ip) (it := it1) (out := out)
          as (k & it' & K1 & K2); auto.
        + rewrite Eqs, <- app_assoc. reflexivity.
        + intros y Hy; apply Hne; right; auto.
        + cbn. rewrite app_length. cbn. lia.
        + exists k, (backtrack it'). split; [|eapply ck_backtrack; eauto]. intros f. rewrite K1. cbn zeta. cbn [skipn enum].
          unfold after at 1. cbn [Model.unwind]. rewrite Enth. destruct (Nat.ltb_spec (S j) (length q)) as [Hlt|Hge]; [reflexivity|].
          reflexivity.
      - exists 0, it1. cbn zeta. cbn [map]. rewrite app_nil_r. split; auto. }
    destruct ST as (k0 & it2 & L & R2). destruct (Nat.ltb_spec (S j) (length q)) as [Hlt|Hge].
    + destruct (IHn (S j) p ip it2 (out ++ map fin (if ok (p ++ [x]) then enum (p ++ [x]) (q2 :: rest) else [])) ltac:(lia) Hlt Hip R2) as (k & it' & K1 & K2).
      exists (S k0 + k), it'. split; auto.
      intros fuel. rewrite <- Nat.add_assoc. rewrite L. cbn zeta. rewrite K1, map_app, app_assoc. reflexivity.
    + exists (S k0), it2. split; auto. intros fuel. rewrite L. cbn zeta.
      rewrite (skipn_all2 q) by lia. cbn [flat_map]. rewrite app_nil_r. reflexivity.
Qed.

Lemma filter_flat_map {A B} (f : A -> list B) (g : B -> bool) l : filter g (flat_map f l) = flat_map (fun x => filter g (f x)) l.
Proof. induction l; cbn; auto. rewrite filter_app, IHl. auto. Qed.
Lemma filter_map' {A B} (f : A -> B) (g : B -> bool) l : filter g (map f l) = map f (filter (fun x => g (f x)) l).
Proof. induction l as [|a l IH]; cbn; auto. destruct (g (f a)); cbn; rewrite IH; auto. Qed.
Lemma map_flat_map {A B C} (f : A -> list B) (g : B -> C) l : map g (flat_map f l) = flat_map (fun x => map g (f x)) l.
Proof. induction l; cbn; auto. rewrite map_app, IHl. auto. Qed.
Lemma filter_false {A} (l : list A) f : (forall x, f x = false) -> filter f l = [].
Proof. intros H. induction l; cbn; auto. rewrite H; auto. Qed.
Lemma enum_product qs : forall p, enum p qs = map (app p) (filter (fun c => forallb (fun n => ok (p ++ firstn n c)) (seq 1 (length c))) (product qs)).
Proof.
  induction qs as [|q qs IH]; intros p; [cbn; rewrite app_nil_r; auto|].
  cbn [enum product]. rewrite filter_flat_map, map_flat_map. apply flat_map_ext. intros x.
  rewrite filter_map', map_map.
  destruct (ok (p ++ [x])) eqn:E.
  - rewrite IH. 
    rewrite (filter_ext (fun c => forallb (fun n => ok ((p ++ [x]) ++ firstn n c)) (seq 1 (length c)))
      (fun c => forallb (fun n => ok (p ++ firstn n (x :: c))) (seq 1 (length (x :: c))))).
    + apply map_ext. intros c. rewrite <- app_assoc. reflexivity.
    + intros c. cbn [length seq forallb firstn]. rewrite E. cbn [andb]. rewrite <- (seq_shift (length c) 1).
      assert (G : forall l, forallb (fun n => ok ((p ++ [x]) ++ firstn n c)) l = forallb (fun n => ok (p ++ firstn n (x :: c))) (map S l)).
      { induction l as [|a l IHl]; cbn; auto. rewrite IHl, <- app_assoc. reflexivity. }
      exact (G _).
  - rewrite filter_false; auto. intros c. cbn [length seq forallb firstn]. rewrite E. auto.
Qed.

Lemma filterCombos_spec qs it : qs <> [] -> rep it [] -> exists N it', rep it' [] /\
  forall fuel, N <= fuel -> filterCombos append backtrack finalize fuel qs it = Some (map fin (filter (valid ok) (product qs)), it').
Proof.
  intros Hqs Hrep. unfold filterCombos. destruct (existsb _ qs) eqn:E.
  - exists 0, it. split; auto. intros fuel _. repeat f_equal.
    assert (P : product qs = []).
    { clear -E. induction qs as [|q qs IH]; [discriminate|]. cbn in E. destruct q as [|x q]; auto. cbn in E. cbn [product].
      rewrite (IH E). clear. induction (x :: q); cbn; auto. }
    rewrite P. reflexivity.
  - destruct qs as [|q rest]; [congruence|].
    assert (N0 : forall x, In x (q :: rest) -> x <> []).
    { intros x Hx ->. rewrite (proj2 (existsb_exists _ _)) in E; [discriminate|]. exists []. auto. }
    assert (Hq : 0 < length q). { assert (q <> []) by (apply N0; left; auto). destruct q; cbn; [congruence|lia]. }
    destruct (row rest q [] (q :: rest) eq_refl) with (n := length q - 0) (j := 0) (p := @nil T) (ip := @nil nat) (it := it) (out := @nil O)
      as (k & it' & K1 & K2); auto.
    { intros x Hx; apply N0; right; auto. }
    exists k, it'. split; auto. intros fuel Hf. replace fuel with (k + (fuel - k)) by lia. rewrite K1. cbn [app]. unfold after. cbn [Model.unwind].
    f_equal. f_equal. f_equal. change (enum [] (q :: rest) = filter (valid ok) (product (q :: rest))). rewrite enum_product.
    rewrite map_ext with (g := fun x => x) by reflexivity. rewrite map_id. reflexivity.
Qed.
End P.
