From Coq Require Import List Bool Arith Lia Permutation.
From Verif.Channel Require Import Model Spec.
Import ListNotations.

Definition b2n (b : bool) : nat := if b then 1 else 0.

(** * settling and draining queues *)
Section Q.
Context {A B : Type} (f : node A -> B).
Definition plain (q : list (node A)) : list B := flat_map (fun n => if isor n then [] else [f n]) q.
Lemma plain_app q r : plain (q ++ r) = plain q ++ plain r.
Proof. apply flat_map_app. Qed.
Lemma settle_spec w (q : list (node A)) : let (w', q') := settle w q in
  plain q' = plain q /\ (q = [] -> q' = []) /\ (forall P : node A -> Prop, Forall P q -> Forall P q') /\
  match q' with [] => w' = w | n :: _ => if isor n then w (who n) = false /\ w' = setw w (who n) else w' = w end.
Proof.
  induction q as [|n q IH]; cbn [settle]; [auto|]. destruct (isor n) eqn:E.
  - destruct (w (who n)) eqn:Ew.
    + destruct (settle w q) as [w' q']. destruct IH as (I1 & I2 & I3 & I4). cbn [plain flat_map]. rewrite E. repeat split; auto; try discriminate.
      intros P HP. inversion HP; auto.
    + rewrite E. repeat split; auto; discriminate.
  - rewrite E. repeat split; auto; discriminate.
Qed.
Lemma settle_plain_front w (q : list (node A)) : match q with n :: _ => isor n | [] => false end = false -> settle w q = (w, q).
Proof. destruct q as [|n q]; cbn; auto. intros ->. auto. Qed.
Definition orcount (i : nat) (l : list (node A)) : nat := length (filter (fun n => isor n && (who n =? i)) l).
Lemma drain_spec w (q : list (node A)) : let (w', l) := drain w q in
  plain l = plain q /\ forall i, orcount i l + b2n (w i) <= b2n (w' i).
Proof.
  revert w. induction q as [|n q IH]; intros w; cbn [drain]; [cbn; auto|]. destruct (isor n) eqn:E.
  - destruct (w (who n)) eqn:Ew.
    + specialize (IH w). destruct (drain w q) as [w' l]. destruct IH as [I1 I2]. split; auto. cbn [plain flat_map]. rewrite E. auto.
    + specialize (IH (setw w (who n))). destruct (drain (setw w (who n)) q) as [w' l]. destruct IH as [I1 I2]. split.
      * cbn [plain flat_map]. rewrite E. cbn. exact I1.
      * intros i. specialize (I2 i). unfold orcount in *. cbn [filter]. rewrite E. cbn [andb]. unfold setw in I2. rewrite (Nat.eqb_sym (who n) i).
        destruct (Nat.eqb_spec i (who n)) as [Ei|Ei]; cbn [length]; [rewrite Ei, Ew in *|]; cbn [b2n] in *; lia.
  - specialize (IH w). destruct (drain w q) as [w' l]. destruct IH as [I1 I2]. split.
    + cbn [plain flat_map]. rewrite E. cbn. f_equal. exact I1.
    + intros i. specialize (I2 i). unfold orcount in *. cbn [filter]. rewrite E. cbn [andb]. auto.
Qed.
Lemma plain_unreg i (q : list (node A)) : plain (filter (fun n => negb (isor n && (who n =? i))) q) = plain q.
Proof.
  induction q as [|n q IH]; auto. cbn [filter]. destruct (isor n) eqn:E; cbn [andb negb].
  - destruct (who n =? i); cbn [negb plain flat_map]; rewrite ?E; auto.
  - cbn [plain flat_map]. rewrite E. cbn. f_equal. auto.
Qed.
End Q.

Section P.
Context {T : Type}.
Implicit Types (c : chan T).

(** * the ring *)
Definition ring c := count c <= size c /\ (0 < size c -> front c < size c /\ back c = (front c + count c) mod size c).
Lemma mod_inj a b n f : f < n -> a < n -> b < n -> (f + a) mod n = (f + b) mod n -> a = b.
Proof.
  intros Hf Ha Hb H. assert (n <> 0) by lia.
  assert (forall x, x < n -> (f + x) mod n = if f + x <? n then f + x else f + x - n) as G.
  { intros x Hx. destruct (Nat.ltb_spec (f + x) n); [apply Nat.mod_small; auto|].
    replace (f + x) with ((f + x - n) + 1 * n) at 1 by lia. rewrite Nat.mod_add, Nat.mod_small by lia. lia. }
  rewrite !G in H by auto. destruct (Nat.ltb_spec (f + a) n), (Nat.ltb_spec (f + b) n); lia.
Qed.
Lemma buf_insert_ok c v : ring c -> count c < size c -> ring (buf_insert c v) /\ contents (buf_insert c v) = contents c ++ [v].
Proof.
  intros [R1 R2] H. destruct R2 as [R2 R3]; [lia|]. split.
  - split; cbn [buf_insert count size front back]; [lia|]. intros _. split; auto.
    rewrite R3. destruct (Nat.eqb_spec ((front c + count c) mod size c + 1) (size c)) as [E|E].
    + rewrite Nat.add_assoc. rewrite <- (Nat.add_mod_idemp_l (front c + count c) 1) by lia. rewrite E. rewrite Nat.mod_same by lia. auto.
    + rewrite Nat.add_assoc. rewrite <- (Nat.add_mod_idemp_l (front c + count c) 1) by lia. rewrite (Nat.mod_small (_ + 1)); auto.
      pose proof (Nat.mod_upper_bound (front c + count c) (size c)). lia.
  - unfold contents. cbn [buf_insert count front size buffer]. rewrite Nat.add_1_r, seq_S, map_app. cbn [map]. f_equal.
    + apply map_ext_in. intros k Hk. apply in_seq in Hk. unfold wupd. rewrite R3.
      destruct (Nat.eqb_spec ((front c + k) mod size c) ((front c + count c) mod size c)) as [E|]; auto.
      apply mod_inj in E; lia.
    + unfold wupd. cbn [Nat.add]. rewrite R3, Nat.eqb_refl. auto.
Qed.
Definition popped c := C (size c) ((front c + 1) mod size c) (back c) (count c - 1) (buffer c) (prods c) (cons c) (closed c) (won c).
Lemma pop_ok c : ring c -> count c <> 0 -> ring (popped c) /\ contents c = buffer c (front c) :: contents (popped c).
Proof.
  intros [R1 R2] H. destruct R2 as [R2 R3]; [lia|]. split.
  - split; cbn [popped count size front back]; [lia|]. intros _. split; [apply Nat.mod_upper_bound; lia|].
    rewrite R3, Nat.add_mod_idemp_l by lia. f_equal. lia.
  - unfold contents. cbn [popped count size front buffer]. destruct (count c) as [|k] eqn:E; [lia|]. cbn [seq map]. f_equal.
    + rewrite Nat.add_0_r, Nat.mod_small by auto. auto.
    + rewrite Nat.sub_succ, Nat.sub_0_r. rewrite <- seq_shift, map_map. apply map_ext. intros j.
      rewrite Nat.add_mod_idemp_l by lia. do 2 f_equal. lia.
Qed.
Lemma contents_length c : length (contents c) = count c.
Proof. unfold contents. rewrite map_length, seq_length. auto. Qed.
Lemma contents_nil c : count c = 0 -> contents c = [].
Proof. unfold contents. intros ->. auto. Qed.

(** * invariant and per-step accounting *)
Definition Inv c := ring c /\ (prods c <> [] -> count c = size c /\ cons c = []) /\ (cons c <> [] -> count c = 0) /\
  (closed c = true -> prods c = [] /\ cons c = []).
Definition pP : list (node T) -> list (nat * option T) := plain (fun n => (who n, Some (pay n))).
Definition pC : list (node unit) -> list nat := plain (fun n => who n).
Definition fifo c (r : chan T * list (ev T)) := contents c ++ puts (snd r) = gots (snd r) ++ contents (fst r).
Definition good c (r : chan T * list (ev T)) :=
  Inv (fst r) /\ Permutation (contents c ++ puts (snd r)) (gots (snd r) ++ contents (fst r)) /\
  pP (prods c) ++ blockedP (snd r) = resumedP (snd r) ++ pP (prods (fst r)) /\
  pC (cons c) ++ blockedC (snd r) = resumedC (snd r) ++ pC (cons (fst r)) /\
  size (fst r) = size c /\ (closed c = true -> closed (fst r) = true).
Definition fgood c r := good c r /\ fifo c r.
Lemma fgood_intro c r : Inv (fst r) -> fifo c r ->
  pP (prods c) ++ blockedP (snd r) = resumedP (snd r) ++ pP (prods (fst r)) ->
  pC (cons c) ++ blockedC (snd r) = resumedC (snd r) ++ pC (cons (fst r)) ->
  size (fst r) = size c -> (closed c = true -> closed (fst r) = true) -> fgood c r.
Proof. intros ? F ? ? ? ?. split; auto. unfold good. unfold fifo in F. rewrite F. auto 10. Qed.
(** with no events before *)
Definition same c c1 := Inv c1 /\ contents c1 = contents c /\ pP (prods c1) = pP (prods c) /\ pC (cons c1) = pC (cons c) /\
  size c1 = size c /\ closed c1 = closed c.
Lemma same_fgood c c1 r : same c c1 -> fgood c1 r -> fgood c r.
Proof.
  intros (S1 & S2 & S3 & S4 & S5 & S6) [(G1 & G2 & G3 & G4 & G5 & G6) F]. unfold fifo in F. rewrite S2, S3, S4, S5, S6 in *. apply fgood_intro; auto.
Qed.
Lemma same_good c c1 r : same c c1 -> good c1 r -> good c r.
Proof. intros (S1 & S2 & S3 & S4 & S5 & S6) (G1 & G2 & G3 & G4 & G5 & G6). unfold good. rewrite S2, S3, S4, S5, S6 in *. auto 10. Qed.
Definition quiet (e : ev T) := match e with Closed _ _ | Fail _ | Throw _ | Lost _ | Hang _ => True | _ => False end.
Lemma quiet_fgood c c1 (l : list (ev T)) : same c c1 -> Forall quiet l -> fgood c (c1, l).
Proof.
  intros S Q. assert (puts l = [] /\ gots l = [] /\ blockedP l = [] /\ resumedP l = [] /\ blockedC l = [] /\ resumedC l = []) as (E1 & E2 & E3 & E4 & E5 & E6).
  { induction l as [|e l IH]; [repeat split; reflexivity|]. inversion Q as [|? ? Q1 Q2]; subst. specialize (IH Q2). destruct e; try contradiction; exact IH. }
  apply (same_fgood c c1); auto. destruct S as [S _]. apply fgood_intro; cbn [fst snd]; auto; unfold fifo; cbn [fst snd]; rewrite ?E1, ?E2, ?E3, ?E4, ?E5, ?E6, ?app_nil_r; auto.
Qed.
Lemma same_refl c : Inv c -> same c c.
Proof. unfold same; auto 10. Qed.
Lemma settle_cons c : Inv c -> let (w, q) := settle (won c) (cons c) in same c (with_cons c w q).
Proof.
  intros (I1 & I2 & I3 & I4). pose proof (settle_spec (fun n => who n) (won c) (cons c)) as S. destruct (settle (won c) (cons c)) as [w q].
  destruct S as (S1 & S2 & S3 & S4). unfold same. cbn [with_cons prods cons size closed].
  split; [|repeat split; auto]. split; [exact I1|]. cbn [with_cons prods cons size closed count].
  split; [intros H; destruct (I2 H); auto|]. split.
  - intros H. apply I3. intros E. apply H. auto.
  - intros H. destruct (I4 H); auto.
Qed.
Lemma settle_prods c : Inv c -> let (w, q) := settle (won c) (prods c) in same c (with_prods c w q).
Proof.
  intros (I1 & I2 & I3 & I4). pose proof (settle_spec (fun n : node T => (who n, Some (pay n))) (won c) (prods c)) as S. destruct (settle (won c) (prods c)) as [w q].
  destruct S as (S1 & S2 & S3 & S4). unfold same. cbn [with_prods prods cons size closed].
  split; [|repeat split; auto]. split; [exact I1|]. cbn [with_prods prods cons size closed count].
  split; [intros H; apply I2; intros E; apply H; auto|]. split; auto.
  intros H. destruct (I4 H); auto.
Qed.
Lemma same_won c w : Inv c -> same c (with_cons c w (cons c)).
Proof. intros I. split; [exact I|]. repeat split. Qed.
Lemma same_trans a b c : same a b -> same b c -> same a c.
Proof. intros (A1 & A2 & A3 & A4 & A5 & A6) (B1 & B2 & B3 & B4 & B5 & B6). split; [exact B1|]. repeat split; congruence. Qed.

Lemma cons_handoff c w n r i v o : Inv c -> cons c = n :: r ->
  fgood c (with_cons c w r, [Put (Self o) i v; Got (Queued (isor n)) (who n) (Some v)]).
Proof.
  intros (I1 & I2 & I3 & I4) E. assert (count c = 0) as Hc by (apply I3; rewrite E; discriminate).
  assert (prods c = []) as Hp. { destruct (prods c) eqn:Ep; auto. destruct I2 as [_ I2]; [discriminate|]. congruence. }
  assert (closed c = false) as Hcl. { destruct (closed c); auto. destruct I4; auto. congruence. }
  apply fgood_intro; cbn [fst snd]; unfold fifo; cbn [fst snd].
  - split; [exact I1|]. cbn [with_cons prods cons closed count]. rewrite Hp, Hcl. repeat split; congruence.
  - unfold contents. cbn [with_cons count]. rewrite Hc. auto.
  - cbn [blockedP resumedP flat_map app with_cons prods]. destruct (isor n); rewrite app_nil_r; auto.
  - cbn [blockedC resumedC flat_map app with_cons cons]. rewrite E, app_nil_r. unfold pC. cbn [plain flat_map]. destruct (isor n); auto.
  - auto.
  - cbn. auto.
Qed.
Lemma buf_put c i v o : Inv c -> cons c = [] -> count c <> size c -> fgood c (buf_insert c (Some v), [Put (Self o) i v]).
Proof.
  intros (I1 & I2 & I3 & I4) E Hc. assert (count c < size c) as Hlt by (destruct I1; lia). destruct (buf_insert_ok c (Some v) I1 Hlt) as [R1 R2].
  assert (prods c = []) as Hp. { destruct (prods c) eqn:Ep; auto. destruct I2 as [I2 _]; [discriminate|]. congruence. }
  apply fgood_intro; cbn [fst snd]; unfold fifo; cbn [fst snd].
  - split; auto. cbn [buf_insert prods cons closed count size]. rewrite Hp, E. repeat split; congruence.
  - rewrite R2. auto.
  - cbn. rewrite Hp. auto.
  - cbn. rewrite app_nil_r. auto.
  - auto.
  - auto.
Qed.
Lemma put_or_good c o i v full : Inv c ->
  (forall c1, same c c1 -> cons c1 = [] -> prods c1 = prods c -> count c1 = size c1 -> fgood c1 (full c1)) -> fgood c (put_or o c i v full).
Proof.
  intros I F. unfold put_or. pose proof (settle_cons c I) as S. destruct (settle (won c) (cons c)) as [w q].
  apply (same_fgood c _ _ S). pose proof S as [I1 _]. destruct q as [|n r].
  - destruct (Nat.eqb_spec (count (with_cons c w [])) (size (with_cons c w []))) as [E|E].
    + apply F; auto.
    + apply buf_put; auto.
  - change (with_cons (with_cons c w (n :: r)) w r) with (with_cons (with_cons c w (n :: r)) w r). apply cons_handoff; auto.
Qed.
Lemma block_prod_good c o i v : Inv c -> cons c = [] -> count c = size c -> closed c = false -> fgood c (block_prod o i v c).
Proof.
  intros (I1 & I2 & I3 & I4) E Hc Hcl. unfold block_prod. apply fgood_intro; cbn [fst snd]; unfold fifo; cbn [fst snd].
  - split; [exact I1|]. cbn [with_prods prods cons closed count size]. rewrite Hcl. repeat split; auto; discriminate.
  - cbn [puts gots flat_map app]. rewrite app_nil_r. auto.
  - cbn [blockedP resumedP flat_map app with_prods prods]. unfold pP. rewrite plain_app. cbn [plain flat_map isor who pay]. destruct o; auto.
  - cbn. rewrite app_nil_r. auto.
  - auto.
  - auto.
Qed.
Lemma prods_handoff_good c0 w0 w n r i o : let c := with_prods c0 w0 (n :: r) in Inv c ->
  good c (prods_handoff o c0 w n r i) /\ (size c = 0 -> fifo c (prods_handoff o c0 w n r i)).
Proof.
  intros c (I1 & I2 & I3 & I4). destruct I2 as [I2 I5]; [discriminate|].
  assert (closed c = false) as Hcl. { destruct (closed c); auto. destruct I4; auto. discriminate. }
  unfold prods_handoff. change (contents c) with (contents c0). cbn [c with_prods size count cons closed prods] in I2, I3, I4, I5, Hcl. split.
  - unfold good. cbn [fst snd]. split; [|split; [|split; [|split; [|split]]]].
    + split; [exact I1|]. cbn [with_prods prods cons closed count size]. rewrite I5, Hcl. repeat split; auto; congruence.
    + cbn [puts gots flat_map app]. change (contents (with_prods c0 w r)) with (contents c0). symmetry. apply Permutation_cons_append.
    + cbn [blockedP resumedP flat_map app with_prods prods c]. rewrite app_nil_r. unfold pP. cbn [plain flat_map]. destruct (isor n); auto.
    + cbn. rewrite app_nil_r. auto.
    + reflexivity.
    + cbn. congruence.
  - intros Hs. unfold fifo. cbn [fst snd puts gots flat_map app]. change (contents (with_prods c0 w r)) with (contents c0). change (contents c) with (contents c0).
    rewrite contents_nil; auto. change (size c) with (size c0) in Hs. congruence.
Qed.
Lemma do_remove_good c o i : Inv c -> count c <> 0 -> fgood c (do_remove o c i).
Proof.
  intros (I1 & I2 & I3 & I4) Hc. destruct (pop_ok c I1 Hc) as [R1 R2].
  assert (cons c = []) as Hcn. { destruct (cons c) eqn:Ec; auto. exfalso. apply Hc, I3. discriminate. }
  unfold do_remove. fold (popped c). pose proof (settle_spec (fun n : node T => (who n, Some (pay n))) (won (popped c)) (prods (popped c))) as S.
  destruct (prods c) as [|n0 r0] eqn:Ep.
  - change (prods (popped c)) with (prods c). rewrite Ep, andb_false_r. apply fgood_intro; cbn [fst snd]; unfold fifo; cbn [fst snd].
    + split; auto. cbn [popped prods cons closed count size]. rewrite Ep, Hcn. repeat split; congruence.
    + cbn [puts gots flat_map app]. rewrite app_nil_r. exact R2.
    + cbn [blockedP resumedP flat_map app popped prods]. rewrite app_nil_r. auto.
    + cbn [blockedC resumedC flat_map app popped cons]. rewrite app_nil_r. auto.
    + auto.
    + auto.
  - destruct I2 as [I2 _]; [discriminate|]. change (prods (popped c)) with (prods c) in *. rewrite Ep in *.
    assert (closed c = false) as Hcl. { destruct (closed c); auto. destruct I4; auto. congruence. }
    change (count (popped c)) with (count c - 1). change (size (popped c)) with (size c). rewrite <- I2, Nat.eqb_refl. cbn [andb].
    destruct (settle (won (popped c)) (n0 :: r0)) as [w q]. destruct S as (S1 & S2 & S3 & S4). destruct q as [|n r].
    + apply fgood_intro; cbn [fst snd]; unfold fifo; cbn [fst snd].
      * split; [exact R1|]. cbn [with_prods popped prods cons closed count size]. rewrite Hcn, Hcl. repeat split; congruence.
      * cbn [puts gots flat_map app]. rewrite app_nil_r. exact R2.
      * cbn [blockedP resumedP flat_map app with_prods prods]. rewrite app_nil_r. rewrite Ep. symmetry. exact S1.
      * cbn [blockedC resumedC flat_map app with_prods popped cons]. rewrite app_nil_r. auto.
      * auto.
      * auto.
    + destruct (buf_insert_ok (popped c) (Some (pay n)) R1) as [B1 B2]; [cbn [popped count size]; lia|].
      apply fgood_intro; cbn [fst snd]; unfold fifo; cbn [fst snd].
      * split; [exact B1|]. cbn [with_prods buf_insert popped prods cons closed count size]. rewrite Hcn, Hcl. repeat split; try congruence. lia.
      * cbn [puts gots flat_map app]. change (contents (with_prods (buf_insert (popped c) (Some (pay n))) w r)) with (contents (buf_insert (popped c) (Some (pay n)))).
        rewrite B2, R2. auto.
      * cbn [blockedP resumedP flat_map app with_prods prods]. rewrite app_nil_r, Ep. fold pP in S1. rewrite <- S1. unfold pP. cbn [plain flat_map]. destruct (isor n); auto.
      * cbn [blockedC resumedC flat_map app with_prods buf_insert popped cons]. rewrite app_nil_r. destruct (isor n); auto.
      * auto.
      * auto.
Qed.
Lemma get_or_good c o i empty : Inv c ->
  (forall c1, same c c1 -> cons c1 = cons c -> prods c1 = [] -> count c1 = 0 -> fgood c1 (empty c1)) -> fgood c (get_or o c i empty).
Proof.
  intros I F. unfold get_or. destruct (Nat.eqb_spec (size c) 0) as [Hz|Hz].
  - pose proof (settle_prods c I) as S. destruct (settle (won c) (prods c)) as [w q]. apply (same_fgood c _ _ S). pose proof S as [I1 _]. destruct q as [|n r].
    + destruct (Nat.eqb_spec (count (with_prods c w [])) 0); [apply F; auto|apply do_remove_good; auto].
    + destruct (prods_handoff_good c w w n r i o I1) as [G1 G2]. split; auto.
  - destruct (Nat.eqb_spec (count c) 0) as [E|E]; [|apply do_remove_good; auto]. apply F; auto using same_refl.
    destruct (prods c) eqn:Ep; auto. destruct I as (_ & I2 & _). destruct I2; [congruence|lia].
Qed.
Lemma block_cons_good c o i : Inv c -> prods c = [] -> count c = 0 -> closed c = false -> fgood c (block_cons o i c).
Proof.
  intros (I1 & I2 & I3 & I4) E Hc Hcl. unfold block_cons. apply fgood_intro; cbn [fst snd]; unfold fifo; cbn [fst snd].
  - split; [exact I1|]. cbn [with_cons prods cons closed count size]. rewrite Hcl, E. repeat split; auto; try discriminate; congruence.
  - cbn [puts gots flat_map app]. rewrite app_nil_r. auto.
  - cbn. rewrite app_nil_r. auto.
  - cbn [blockedC resumedC flat_map app with_cons cons]. unfold pC. rewrite plain_app. cbn [plain flat_map isor who pay]. destruct o; auto.
  - auto.
  - auto.
Qed.
Lemma close_good c : Inv c -> fgood c (close c).
Proof.
  intros (I1 & I2 & I3 & I4). unfold close. pose proof (drain_spec (fun n : node unit => who n) (won c) (cons c)) as D1. destruct (drain (won c) (cons c)) as [w1 l1].
  pose proof (drain_spec (fun n : node T => (who n, Some (pay n))) w1 (prods c)) as D2. destruct (drain w1 (prods c)) as [w2 l2]. destruct D1 as [D1 _], D2 as [D2 _].
  fold pP in D2. fold pC in D1.
  assert (forall (l1 : list (node unit)) (l2 : list (node T)), let l := map (fun n => ShutC (isor n) (who n)) l1 ++ map (fun n => ShutP (isor n) (who n) (pay n)) l2 in
    puts l = [] /\ gots l = [] /\ blockedP l = [] /\ blockedC l = [] /\ resumedP l = pP l2 /\ resumedC l = pC l1) as G.
  { clear. intros l1 l2. cbn zeta. induction l1 as [|n l1 IH].
    - cbn [map app]. induction l2 as [|n l2 IH]; [cbn; auto 10|]. destruct IH as (A & B & C & D & E & F). repeat split; auto.
      + cbn [map resumedP flat_map]. unfold pP. cbn [plain flat_map]. destruct (isor n); cbn [app]; [exact E|f_equal; exact E].
    - destruct IH as (A & B & C & D & E & F). repeat split; auto.
      cbn [map app resumedC flat_map]. unfold pC. cbn [plain flat_map]. destruct (isor n); cbn [app]; [exact F|f_equal; exact F]. }
  destruct (G l1 l2) as (E1 & E2 & E3 & E4 & E5 & E6). apply fgood_intro; cbn [fst snd]; unfold fifo; cbn [fst snd].
  - split; [exact I1|]. cbn. repeat split; congruence.
  - rewrite E1, E2, app_nil_r. auto.
  - rewrite E3, E5, D2. cbn. auto.
  - rewrite E4, E6, D1. cbn. auto.
  - auto.
  - auto.
Qed.
Lemma flush_good c i v : Inv c -> fgood c (flush c i v).
Proof.
  intros I. pose proof I as (I1 & I2 & I3 & I4). unfold flush. destruct (Nat.eqb_spec (count c) 0) as [E|E]; [|apply quiet_fgood; auto using same_refl].
  assert (forall q : list (node unit), let l := flat_map (fun n => [@Put T (Self false) i v; Got (Queued (isor n)) (who n) (Some v)]) q in
    puts l = gots l /\ blockedP l = [] /\ blockedC l = [] /\ resumedP l = [] /\ resumedC l = pC q) as G.
  { intros q. cbn zeta. induction q as [|n q IH]; [cbn; auto|]. destruct IH as (A & B & C & D & F). repeat split; auto.
    - cbn [flat_map puts gots app]. f_equal. exact A.
    - cbn [flat_map resumedC app]. unfold pC. cbn [plain flat_map]. destruct (isor n); cbn [app]; [exact F|f_equal; exact F]. }
  destruct (G (cons c)) as (G1 & G2 & G3 & G4 & G5). apply fgood_intro; cbn [fst snd]; unfold fifo; cbn [fst snd].
  - split; [exact I1|]. cbn [with_cons prods cons closed count size]. split; [intros H; destruct (I2 H); auto|]. split; [congruence|]. intros H. destruct (I4 H); auto.
  - rewrite G1. change (contents (with_cons c (won c) [])) with (contents c). rewrite contents_nil by auto. rewrite app_nil_r. auto.
  - rewrite G2, G4, app_nil_r. auto.
  - rewrite G3, G5. cbn. auto.
  - auto.
  - auto.
Qed.
Lemma unreg_good c i : Inv c -> fgood c (unreg c i).
Proof.
  intros (I1 & I2 & I3 & I4). unfold unreg. apply quiet_fgood; auto. unfold same. cbn [prods cons size closed].
  split; [|repeat split; auto; apply plain_unreg].
  assert (forall A (f : node A -> bool) q, q = [] -> filter f q = []) as Fn by (intros A f q ->; auto).
  split; [exact I1|]. cbn [prods cons closed count size]. split; [|split].
  - intros H. destruct I2 as [I2 I5]; [intros Z; apply H, Fn; auto|]. auto.
  - intros H. apply I3. intros Z. apply H. auto.
  - intros H. destruct (I4 H). auto.
Qed.
Lemma reg_write_good c i v : Inv c -> fgood c (reg_write c i v).
Proof.
  intros I. unfold reg_write. set (pend := negb (closed c) && _). destruct (pend && won c i); [apply quiet_fgood; auto using same_refl; repeat constructor|].
  assert (let (w, q) := if pend then settle (won c) (cons c) else (won c, cons c) in same c (with_cons c w q)) as S.
  { destruct pend; [apply settle_cons; auto|]. apply same_won; auto. }
  destruct (if pend then settle (won c) (cons c) else (won c, cons c)) as [w q]. pose proof S as [I1 _].
  assert (fgood c (let c' := with_cons c w q in if negb (count c' =? size c') || match q with [] => false | _ => true end || closed c' then
          if won c' i then (c', [Lost i]) else let c' := with_cons c' (setw w i) q in
            if closed c' then (c', [Closed true i]) else put_or true c' i v (block_prod true i v)
        else put_or true c' i v (block_prod true i v))) as G.
  { cbn zeta. apply (same_fgood c _ _ S). set (c' := with_cons c w q) in *. destruct (_ || closed c') eqn:E.
    - destruct (won c' i); [apply quiet_fgood; auto using same_refl; repeat constructor|].
      assert (same c' (with_cons c' (setw w i) q)) as S' by (apply same_won; auto).
      apply (same_fgood c' _ _ S'). destruct (closed _) eqn:Ec; [apply quiet_fgood; [apply same_refl; apply S'|repeat constructor]|].
      apply put_or_good; [apply S'|]. intros c1 (J1 & _ & _ & _ & _ & J2) J3 J4 J5. apply block_prod_good; auto. rewrite J2. exact Ec.
    - apply orb_false_iff in E as [E1 E2]. apply put_or_good; auto. intros c1 (J1 & _ & _ & _ & _ & J2) J3 J4 J5. apply block_prod_good; auto. rewrite J2. exact E2. }
  destruct pend; [|exact G]. destruct q as [|n r]; [exact G|].
  destruct (isor n && (who n =? i)).
  - apply quiet_fgood; [|repeat constructor]. eapply same_trans; [exact S|]. split; [exact I1|]. repeat split; reflexivity.
  - apply (same_fgood c _ _ S). exact (cons_handoff (with_cons c w (n :: r)) (setw w i) n r i v true I1 eq_refl).
Qed.
Lemma reg_read_good c i : Inv c -> good c (reg_read c i) /\
  (size c = 0 \/ Forall (fun n => isor n = false) (prods c) -> fifo c (reg_read c i)).
Proof.
  intros I. unfold reg_read. set (pend := negb (closed c) && _). destruct (pend && won c i).
  { assert (fgood c (c, [Lost i])) as [A B] by (apply quiet_fgood; auto using same_refl; repeat constructor). auto. }
  assert (let (w, q) := if pend then settle (won c) (prods c) else (won c, prods c) in same c (with_prods c w q)) as S.
  { destruct pend; [apply settle_prods; auto|]. split; [exact I|]. repeat split; reflexivity. }
  destruct (if pend then settle (won c) (prods c) else (won c, prods c)) as [w q]. pose proof S as [I1 _].
  assert (fgood c (let c' := with_prods c w q in if negb (count c' =? 0) || match q with [] => false | _ => true end || closed c' then
          if won c' i then (c', [Lost i]) else let c' := with_prods c' (setw w i) q in
            if closed c' then (c', [Closed true i]) else get_or true c' i (block_cons true i)
        else get_or true c' i (block_cons true i))) as G.
  { cbn zeta. apply (same_fgood c _ _ S). set (c' := with_prods c w q) in *. destruct (_ || closed c') eqn:E.
    - destruct (won c' i); [apply quiet_fgood; auto using same_refl; repeat constructor|].
      assert (same c' (with_prods c' (setw w i) q)) as S' by (split; [exact I1|]; repeat split; reflexivity).
      apply (same_fgood c' _ _ S'). destruct (closed _) eqn:Ec; [apply quiet_fgood; [apply same_refl; apply S'|repeat constructor]|].
      apply get_or_good; [apply S'|]. intros c1 (J1 & _ & _ & _ & _ & J2) J3 J4 J5. apply block_cons_good; auto. rewrite J2. exact Ec.
    - apply orb_false_iff in E as [E1 E2]. apply get_or_good; auto. intros c1 (J1 & _ & _ & _ & _ & J2) J3 J4 J5. apply block_cons_good; auto. rewrite J2. exact E2. }
  destruct pend eqn:Ep; [|destruct G; auto]. destruct q as [|n r]; [destruct G; auto|].
  destruct (isor n && (who n =? i)).
  { assert (fgood c (with_prods c (won c) (n :: r), [Hang i])) as [A B]; auto. apply quiet_fgood; [|repeat constructor].
    eapply same_trans; [exact S|]. split; [exact I1|]. repeat split; reflexivity. }
  destruct (prods_handoff_good c w (setw w i) n r i true I1) as [H1 H2]. split.
  - eapply same_good; eauto.
  - intros [Hz|Hf]; [exact (H2 Hz)|]. unfold pend in Ep. destruct (prods c) as [|m q]; [rewrite andb_false_r in Ep; discriminate|].
    inversion Hf as [|? ? Hm]; subst. rewrite Hm, andb_false_r in Ep. discriminate.
Qed.
Lemma step_good c o : Inv c -> good c (step c o) /\
  (size c = 0 \/ is_reg_read o = false \/ Forall (fun n => isor n = false) (prods c) -> fifo c (step c o)).
Proof.
  intros I. assert (fgood c (step c o) -> good c (step c o) /\
  (size c = 0 \/ is_reg_read o = false \/ Forall (fun n => isor n = false) (prods c) -> fifo c (step c o))) as K by (intros [? ?]; auto).
  destruct o; cbn [step] in *.
  - apply K. unfold insert. destruct (closed c) eqn:E; [apply quiet_fgood; auto using same_refl; repeat constructor|].
    apply put_or_good; auto. intros c1 (J1 & _ & _ & _ & _ & J2) J3 J4 J5. apply block_prod_good; auto. congruence.
  - apply K. apply put_or_good; auto. intros c1 (J1 & _) _ _ _. apply quiet_fgood; auto using same_refl; repeat constructor.
  - apply K. unfold closed_insert. destruct res; [|apply quiet_fgood; auto using same_refl; repeat constructor].
    apply put_or_good; auto. intros c1 (J1 & _) _ _ _. apply quiet_fgood; auto using same_refl; repeat constructor.
  - apply K. unfold remove. destruct (closed c) eqn:E; [apply quiet_fgood; auto using same_refl; repeat constructor|].
    apply get_or_good; auto. intros c1 (J1 & _ & _ & _ & _ & J2) J3 J4 J5. apply block_cons_good; auto. congruence.
  - apply K. apply get_or_good; auto. intros c1 (J1 & _) _ _ _. apply quiet_fgood; auto using same_refl; repeat constructor.
  - apply K. unfold closed_remove. destruct handled; [|apply quiet_fgood; auto using same_refl; repeat constructor].
    apply get_or_good; auto. intros c1 (J1 & _) _ _ _. apply quiet_fgood; auto using same_refl; repeat constructor.
  - apply K, close_good; auto.
  - apply K, flush_good; auto.
  - clear K. destruct (reg_read_good c i I) as [A B]. split; auto. intros [H|[H|H]]; [auto|discriminate|auto].
  - apply K, reg_write_good; auto.
  - apply K, unreg_good; auto.
  - apply K. unfold other_wins. apply quiet_fgood; auto using same_won.
Qed.

(** * whole histories *)
Definition noor (q : list (node T)) := Forall (fun n => isor n = false) q.
Lemma settle_noor w (q : list (node T)) : noor q -> noor (snd (settle w q)).
Proof. intros H. pose proof (settle_spec (fun n => n) w q) as S. destruct (settle w q) as [w' q']. destruct S as (_ & _ & S & _). apply S. exact H. Qed.
Lemma put_or_noor c o i v full : noor (prods c) -> (forall c1, prods c1 = prods c -> noor (prods (fst (full c1)))) -> noor (prods (fst (put_or o c i v full))).
Proof.
  intros H F. unfold put_or. destruct (settle (won c) (cons c)) as [w [|n r]]; [|exact H]. destruct (_ =? _); [apply F; auto|exact H].
Qed.
Lemma do_remove_noor c o i : noor (prods c) -> noor (prods (fst (do_remove o c i))).
Proof.
  intros H. unfold do_remove. fold (popped c). destruct (_ && _); [|exact H]. change (won (popped c)) with (won c). change (prods (popped c)) with (prods c).
  pose proof (settle_noor (won c) _ H) as S. destruct (settle (won c) (prods c)) as [w [|n r]]; cbn [snd] in S; [exact S|]. inversion S; auto.
Qed.
Lemma get_or_noor c o i empty : noor (prods c) -> (forall c1, noor (prods c1) -> noor (prods (fst (empty c1)))) -> noor (prods (fst (get_or o c i empty))).
Proof.
  intros H F. assert (forall c1, noor (prods c1) -> noor (prods (fst (if count c1 =? 0 then empty c1 else do_remove o c1 i)))) as R.
  { intros c1 H1. destruct (_ =? 0); [apply F; auto|apply do_remove_noor; auto]. }
  unfold get_or. destruct (size c =? 0); [|apply R; auto].
  pose proof (settle_noor (won c) _ H) as S. destruct (settle (won c) (prods c)) as [w [|n r]]; cbn [snd] in S; [apply R; exact S|]. inversion S; auto.
Qed.
Lemma step_noor c o : is_reg_write o = false -> noor (prods c) -> noor (prods (fst (step c o))).
Proof.
  intros Ho H. destruct o; try discriminate; cbn [step].
  - unfold insert. destruct (closed c); auto. apply put_or_noor; auto. intros c1 E. cbn. apply Forall_app. rewrite E. split; auto.
  - apply put_or_noor; auto. intros c1 E. cbn. rewrite E. auto.
  - unfold closed_insert. destruct res; auto. apply put_or_noor; auto. intros c1 E. cbn. rewrite E. auto.
  - unfold remove. destruct (closed c); auto. apply get_or_noor; auto.
  - apply get_or_noor; auto.
  - unfold closed_remove. destruct handled; auto. apply get_or_noor; auto.
  - unfold close. destruct (drain _ _). destruct (drain _ _). cbn. constructor.
  - unfold flush. destruct (_ =? 0); auto.
  - unfold reg_read. replace (match prods c with [] => false | n :: _ => isor n end) with false by (destruct H as [|? ? E]; auto).
    rewrite andb_false_r. cbn [andb]. assert (noor (prods (with_prods c (won c) (prods c)))) as H1 by exact H.
    destruct (_ || closed _).
    + destruct (won _ i); auto. destruct (closed _); auto. apply get_or_noor; auto.
    + apply get_or_noor; auto.
  - cbn. apply Forall_forall. intros n Hn. apply filter_In in Hn. unfold noor in H. rewrite Forall_forall in H. apply H, Hn.
  - exact H.
Qed.

Lemma run_good os : forall c, Inv c ->
  let r := run c os in good c r /\ (size c = 0 \/ no is_reg_read os = true \/ noor (prods c) /\ no is_reg_write os = true -> fifo c r).
Proof.
  induction os as [|o os IH]; intros c I; cbn zeta.
  - assert (fgood c (c, [])) as [A B] by (apply quiet_fgood; auto using same_refl). auto.
  - cbn [run]. destruct (step_good c o I) as [G1 G2]. destruct (step c o) as [c1 l1] eqn:Es. destruct G1 as (A1 & A2 & A3 & A4 & A5 & A6). cbn [fst snd] in *.
    destruct (IH c1 A1) as [G3 G4]. destruct (run c1 os) as [c2 l2]. destruct G3 as (B1 & B2 & B3 & B4 & B5 & B6). cbn [fst snd] in *.
    assert (puts (l1 ++ l2) = puts l1 ++ puts l2 /\ gots (l1 ++ l2) = gots l1 ++ gots l2) as [Ep Eg] by (split; apply flat_map_app).
    split.
    + unfold good. cbn [fst snd]. split; auto. split.
      * rewrite Ep, Eg, app_assoc, A2, <- !app_assoc. apply Permutation_app_head. exact B2.
      * split; [|split; [|split; [congruence|auto]]].
        -- unfold blockedP, resumedP in *. rewrite !flat_map_app, app_assoc, A3, <- !app_assoc. f_equal. exact B3.
        -- unfold blockedC, resumedC in *. rewrite !flat_map_app, app_assoc, A4, <- !app_assoc. f_equal. exact B4.
    + intros H. cbn [no forallb] in H. assert (fifo c (c1, l1)) as F1.
      { apply G2. destruct H as [H|[H|H]]; auto. right; left. apply andb_prop in H as [H _]. destruct (is_reg_read o); auto. right; right. apply H. }
      assert (fifo c1 (c2, l2)) as F2.
      { apply G4. destruct H as [H|[H|[H H']]].
        - left. congruence.
        - right; left. apply andb_prop in H as [_ H]. exact H.
        - right; right. apply andb_prop in H' as [Hw H']. split; auto. replace c1 with (fst (step c o)) by (rewrite Es; auto). apply step_noor; auto. destruct (is_reg_write o); auto. }
      unfold fifo in *. cbn [fst snd] in *. rewrite Ep, Eg, app_assoc, F1, <- !app_assoc. f_equal. exact F2.
Qed.
Lemma init_inv n : Inv (init n).
Proof. split; [|cbn; auto]. split; cbn; [lia|]. intros H. rewrite Nat.mod_small; auto. cbn. repeat split; congruence. Qed.

(** * exclusive choice in OR waituntils *)
Definition gain c (r : chan T * list (ev T)) := forall j, completions j (snd r) + b2n (won c j) <= b2n (won (fst r) j).
Definition gain_but c o i (r : chan T * list (ev T)) := forall j, completions j (snd r) + b2n (won c j) <= b2n (won (fst r) j) + b2n (o && (j =? i)).
Definition silent c (r : chan T * list (ev T)) := (forall j, completions j (snd r) = 0) /\ won (fst r) = won c.
Lemma completions_app j (l1 l2 : list (ev T)) : completions j (l1 ++ l2) = completions j l1 + completions j l2.
Proof. unfold completions. rewrite filter_app, app_length. auto. Qed.
Ltac ev_count := unfold completions; cbn [filter length].
Lemma settle_won {A} w (q : list (node A)) j : let (w', q') := settle w q in
  match q' with n :: _ => b2n (isor n && (j =? who n)) + b2n (w j) = b2n (w' j) | [] => w' = w end.
Proof.
  pose proof (settle_spec (fun n => n) w q) as S. destruct (settle w q) as [w' [|n r]]; destruct S as (_ & _ & _ & S); auto.
  destruct (isor n); [|subst; auto]. destruct S as [S ->]. unfold setw. destruct (Nat.eqb_spec j (who n)) as [E|E]; [rewrite E, S|]; auto.
Qed.
Lemma put_or_gain c o i v full : (forall c1, won c1 = won c -> silent c1 (full c1)) -> gain_but c o i (put_or o c i v full).
Proof.
  intros F j. unfold put_or. pose proof (settle_won (won c) (cons c) j) as S. destruct (settle (won c) (cons c)) as [w [|n r]].
  - subst. destruct (_ =? _).
    + destruct (F (with_cons c (won c) [])) as [F1 F2]; auto. rewrite F1, F2. cbn. lia.
    + cbn [fst snd buf_insert won with_cons]. ev_count. destruct o; cbn [andb b2n length]; [destruct (j =? i); cbn [length b2n]|]; lia.
  - cbn [fst snd buf_insert won with_cons]. ev_count. destruct o; destruct (isor n); cbn [andb b2n length] in *;
      try (destruct (j =? i)); try (destruct (j =? who n)); cbn [length b2n andb] in *; lia.
Qed.
Lemma do_remove_gain c o i : gain_but c o i (do_remove o c i).
Proof.
  intros j. unfold do_remove. fold (popped c). destruct (_ && _).
  - change (won (popped c)) with (won c). change (prods (popped c)) with (prods c).
    pose proof (settle_won (won c) (prods c) j) as S. destruct (settle (won c) (prods c)) as [w [|n r]].
    + subst. cbn [fst snd with_prods won]. ev_count. destruct o; cbn [andb b2n length]; [destruct (j =? i); cbn [length b2n]|]; lia.
    + cbn [fst snd with_prods won]. ev_count. destruct o; destruct (isor n); cbn [andb b2n length] in *;
      try (destruct (j =? i)); try (destruct (j =? who n)); cbn [length b2n andb] in *; lia.
  - cbn [fst snd popped won]. ev_count. destruct o; cbn [andb b2n length]; [destruct (j =? i); cbn [length b2n]|]; lia.
Qed.
Lemma get_or_gain c o i empty : (forall c1, won c1 = won c -> silent c1 (empty c1)) -> gain_but c o i (get_or o c i empty).
Proof.
  intros F. assert (forall c1, won c1 = won c -> gain_but c o i (if count c1 =? 0 then empty c1 else do_remove o c1 i)) as R.
  { intros c1 E. destruct (_ =? 0).
    - intros j. destruct (F c1) as [F1 F2]; auto. rewrite F1, F2, E. lia.
    - intros j. rewrite <- E. apply do_remove_gain. }
  unfold get_or. destruct (size c =? 0); [|apply R; auto]. intros j.
  pose proof (settle_won (won c) (prods c) j) as S. destruct (settle (won c) (prods c)) as [w [|n r]]; [apply R; auto|].
  cbn [prods_handoff fst snd with_prods won]. ev_count. destruct o; destruct (isor n); cbn [andb b2n length] in *;
      try (destruct (j =? i)); try (destruct (j =? who n)); cbn [length b2n andb] in *; lia.
Qed.
Lemma gain_false c i r : gain_but c false i r -> gain c r.
Proof. intros H j. specialize (H j). cbn in H. lia. Qed.
Lemma silent_gain c r : silent c r -> gain c r.
Proof. intros [A B] j. rewrite A, B. lia. Qed.
Lemma setw_b w i j : w i = false -> b2n (setw w i j) = b2n (w j) + b2n (j =? i).
Proof. intros H. unfold setw. destruct (Nat.eqb_spec j i) as [E|E]; [rewrite E, H|]; cbn; lia. Qed.
Lemma gain_mark c c1 i r : won c i = false -> won c1 = setw (won c) i -> gain_but c1 true i r -> gain c r.
Proof. intros H E G j. specialize (G j). rewrite E, setw_b in G by auto. cbn [andb] in G. lia. Qed.
Lemma gain_won c c1 r : won c1 = won c -> gain c1 r -> gain c r.
Proof. intros E G j. rewrite <- E. apply G. Qed.
Lemma handoff_gain {A} c c1 w i j (n : node A) (l : list (ev T)) : won c i = false -> isor n && (who n =? i) = false -> won c1 = setw w i ->
  b2n (isor n && (j =? who n)) + b2n (won c j) = b2n (w j) ->
  completions j l = b2n (j =? i) + b2n (isor n && (j =? who n)) -> completions j l + b2n (won c j) <= b2n (won c1 j).
Proof.
  intros H1 H2 H3 H4 H5. rewrite H3, H5. unfold setw. destruct (Nat.eqb_spec j i) as [E|E]; [|cbn; lia].
  rewrite E in *. rewrite H1. rewrite (Nat.eqb_sym i (who n)), H2. cbn. lia.
Qed.
Lemma step_gain c o : is_flush o = false -> Inv c -> gain c (step c o).
Proof.
  intros Ho I. destruct o; try discriminate; cbn [step].
  - unfold insert. destruct (closed c); [apply silent_gain; split; auto|]. apply (gain_false c i). apply put_or_gain. intros c1 E. split; auto.
  - apply (gain_false c i). apply put_or_gain. intros c1 E. split; auto.
  - unfold closed_insert. destruct res; [|apply silent_gain; split; auto]. apply (gain_false c i). apply put_or_gain. intros c1 E. split; auto.
  - unfold remove. destruct (closed c); [apply silent_gain; split; auto|]. apply (gain_false c i). apply get_or_gain. intros c1 E. split; auto.
  - apply (gain_false c i). apply get_or_gain. intros c1 E. split; auto.
  - unfold closed_remove. destruct handled; [|apply silent_gain; split; auto]. apply (gain_false c i). apply get_or_gain. intros c1 E. split; auto.
  - intros j. unfold close. pose proof (drain_spec (fun n : node unit => who n) (won c) (cons c)) as D1. destruct (drain (won c) (cons c)) as [w1 l1].
    pose proof (drain_spec (fun n : node T => (who n, Some (pay n))) w1 (prods c)) as D2. destruct (drain w1 (prods c)) as [w2 l2].
    destruct D1 as [_ D1], D2 as [_ D2]. specialize (D1 j). specialize (D2 j). cbn [fst snd won]. rewrite completions_app.
    assert (completions j (map (fun n : node unit => @ShutC T (isor n) (who n)) l1) = orcount j l1) as ->.
    { clear. unfold completions, orcount. induction l1 as [|n l IH]; auto. cbn [map filter]. rewrite (Nat.eqb_sym j).
      destruct (isor n); cbn [andb]; auto. destruct (who n =? j); cbn [length]; auto. }
    assert (completions j (map (fun n : node T => ShutP (isor n) (who n) (pay n)) l2) = orcount j l2) as ->.
    { clear. unfold completions, orcount. induction l2 as [|n l IH]; auto. cbn [map filter]. rewrite (Nat.eqb_sym j).
      destruct (isor n); cbn [andb]; auto. destruct (who n =? j); cbn [length]; auto. }
    lia.
  - unfold reg_read. set (pend := negb (closed c) && _). destruct (pend && won c i) eqn:Ew; [apply silent_gain; split; auto|].
    assert (forall c1, won c1 = won c -> (prods c1 = [] -> True) -> gain c (
        if negb (count c1 =? 0) || match prods c1 with [] => false | _ => true end || closed c1 then
          if won c1 i then (c1, [Lost i]) else let c' := with_prods c1 (setw (won c) i) (prods c1) in
            if closed c' then (c', [Closed true i]) else get_or true c' i (block_cons true i)
        else get_or true c1 i (block_cons true i))) as G.
    { intros c1 E _. destruct (_ || closed c1) eqn:Ec.
      - destruct (won c1 i) eqn:Ei; [apply (gain_won c c1); auto; apply silent_gain; split; auto|]. rewrite E in Ei. cbn zeta.
        apply (gain_mark c (with_prods c1 (setw (won c) i) (prods c1)) i); auto. destruct (closed (with_prods c1 (setw (won c) i) (prods c1))).
        + intros j. cbn [fst snd with_prods won]. ev_count. cbn [andb]. destruct (j =? i); cbn [length b2n]; lia.
        + apply get_or_gain. intros c2 E2. split; auto.
      - apply (gain_won c c1); auto. apply orb_false_iff in Ec as [Ec _]. apply orb_false_iff in Ec as [Ec Ep].
        assert (forall c2, won c2 = won c1 -> count c2 = 0 -> gain c1 (if count c2 =? 0 then block_cons true i c2 else do_remove true c2 i)) as K.
        { intros c2 E2 E3. rewrite E3. cbn [Nat.eqb]. apply (gain_won c1 c2); auto. apply silent_gain. split; auto. }
        destruct (Nat.eqb_spec (count c1) 0) as [Hz|]; [|discriminate]. unfold get_or. destruct (size c1 =? 0); [|apply K; auto].
        destruct (prods c1); [|discriminate]. cbn [settle]. apply K; auto. }
    destruct pend eqn:Epd.
    + pose proof (settle_won (won c) (prods c)) as S. destruct (settle (won c) (prods c)) as [w [|n r]].
      * specialize (S 0). subst w. exact (G (with_prods c (won c) []) eq_refl (fun _ => Logic.I)).
      * cbn [andb] in Ew. destruct (isor n && (who n =? i)) eqn:En; [apply silent_gain; split; auto|].
        intros j. specialize (S j). apply (handoff_gain c _ w i j n); auto.
        cbn [prods_handoff snd]. ev_count. destruct (isor n), (j =? i), (j =? who n); auto.
    + exact (G (with_prods c (won c) (prods c)) eq_refl (fun _ => Logic.I)).
  - unfold reg_write. set (pend := negb (closed c) && _). destruct (pend && won c i) eqn:Ew; [apply silent_gain; split; auto|].
    assert (forall c1, won c1 = won c -> gain c (
        if negb (count c1 =? size c1) || match cons c1 with [] => false | _ => true end || closed c1 then
          if won c1 i then (c1, [Lost i]) else let c' := with_cons c1 (setw (won c) i) (cons c1) in
            if closed c' then (c', [Closed true i]) else put_or true c' i v (block_prod true i v)
        else put_or true c1 i v (block_prod true i v))) as G.
    { intros c1 E. destruct (_ || closed c1) eqn:Ec.
      - destruct (won c1 i) eqn:Ei; [apply (gain_won c c1); auto; apply silent_gain; split; auto|]. rewrite E in Ei. cbn zeta.
        apply (gain_mark c (with_cons c1 (setw (won c) i) (cons c1)) i); auto. destruct (closed (with_cons c1 (setw (won c) i) (cons c1))).
        + intros j. cbn [fst snd with_cons won]. ev_count. cbn [andb]. destruct (j =? i); cbn [length b2n]; lia.
        + apply put_or_gain. intros c2 E2. split; auto.
      - apply (gain_won c c1); auto. apply orb_false_iff in Ec as [Ec _]. apply orb_false_iff in Ec as [Ec Ep].
        unfold put_or. destruct (cons c1); [|discriminate]. cbn [settle]. cbn [with_cons count size]. destruct (count c1 =? size c1); [|discriminate].
        apply silent_gain. split; auto. }
    destruct pend eqn:Epd.
    + pose proof (settle_won (won c) (cons c)) as S. destruct (settle (won c) (cons c)) as [w [|n r]].
      * specialize (S 0). subst w. exact (G (with_cons c (won c) []) eq_refl).
      * cbn [andb] in Ew. destruct (isor n && (who n =? i)) eqn:En; [apply silent_gain; split; auto|].
        intros j. specialize (S j). apply (handoff_gain c _ w i j n); auto.
        cbn [snd]. ev_count. destruct (isor n), (j =? i), (j =? who n); auto.
    + exact (G (with_cons c (won c) (cons c)) eq_refl).
  - apply silent_gain. split; auto.
  - intros j. cbn [other_wins fst snd with_cons won]. ev_count. unfold setw. destruct (j =? i), (won c j); cbn; lia.
Qed.
Lemma run_gain os : forall c, no is_flush os = true -> Inv c -> gain c (run c os).
Proof.
  induction os as [|o os IH]; intros c H I; [intros j; cbn; lia|]. cbn [no forallb] in H. apply andb_prop in H as [Ho H].
  cbn [run]. pose proof (step_gain c o) as G1. destruct (step_good c o I) as [[I1 _] _]. destruct (step c o) as [c1 l1].
  pose proof (IH c1 H I1) as G2. destruct (run c1 os) as [c2 l2]. intros j. cbn [fst snd] in *. rewrite completions_app.
  assert (gain c (c1, l1)) as G3 by (apply G1; auto; destruct (is_flush o); auto). specialize (G2 j). specialize (G3 j). cbn [fst snd] in *. lia.
Qed.

(** * after close *)
Definition unput (e : ev T) := match e with Put _ _ _ => false | _ => true end.
Lemma closed_stays os : forall c, Inv c -> closed c = true -> closed (fst (run c os)) = true.
Proof. intros c I H. destruct (run_good os c I) as [(_ & _ & _ & _ & _ & G) _]. auto. Qed.
Lemma closed_reads c i : Inv c -> closed c = true -> forall v r, contents c = v :: r ->
  snd (closed_remove c i true) = [Got (Self false) i v] /\ contents (fst (closed_remove c i true)) = r /\ snd (try_remove c i) = [Got (Self false) i v].
Proof.
  intros I H v r E. pose proof I as (I1 & _ & _ & I4). destruct (I4 H) as [Hp Hc].
  assert (count c <> 0) as Hz by (rewrite <- contents_length, E; cbn; lia). destruct (pop_ok c I1 Hz) as [R1 R2].
  assert (size c <> 0) by (destruct I1; lia).
  assert (forall empty, get_or false c i empty = (popped c, [Got (Self false) i v])) as G.
  { intros em. unfold get_or. rewrite (proj2 (Nat.eqb_neq (size c) 0)), (proj2 (Nat.eqb_neq (count c) 0)) by auto.
    unfold do_remove. fold (popped c). change (prods (popped c)) with (prods c). rewrite Hp, andb_false_r. rewrite R2 in E. inversion E. auto. }
  unfold closed_remove, try_remove. rewrite !G. cbn [fst snd]. rewrite R2 in E. inversion E. auto.
Qed.
End P.
