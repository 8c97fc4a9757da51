From Coq Require Import ZArith List Bool Lia ZifyBool.
From Verif.Cost Require Import Model Spec.
Import ListNotations.
Open Scope Z_scope.
Local Ltac Zify.zify_post_hook ::= Z.div_mod_to_equations.

(** byte lists, most significant first *)
Fixpoint value (l : list Z) : Z := match l with [] => 0 | x :: r => x * 256 ^ Z.of_nat (length r) + value r end.
Definition bytes_ok (l : list Z) : Prop := Forall (fun x => 0 <= x <= 255) l.
Fixpoint bytes (n : nat) (c : Z) : list Z :=
  match n with O => [] | S m => byte (Z.of_nat m) c :: bytes m c end.

Lemma pow_pos n : 0 < 256 ^ Z.of_nat n.
Proof. apply Z.pow_pos_nonneg; lia. Qed.
Lemma value_bound l : bytes_ok l -> 0 <= value l < 256 ^ Z.of_nat (length l).
Proof.
  induction 1 as [|x l Hx Hl IH]; cbn [value length]; [cbn; lia|].
  rewrite Nat2Z.inj_succ, Z.pow_succ_r by lia. assert (H := pow_pos (length l)).
  set (p := 256 ^ Z.of_nat (length l)) in *. clearbody p. nia.
Qed.
Lemma value_lex a : forall b, length a = length b -> bytes_ok a -> bytes_ok b -> lex a b <-> value a < value b.
Proof.
  induction a as [|x a IH]; intros [|y b] Hl Ha Hb; try discriminate; cbn [lex value]; [lia|].
  inversion Ha; subst. inversion Hb; subst. injection Hl as Hl. rewrite IH by auto.
  assert (Va := value_bound a ltac:(auto)). assert (Vb := value_bound b ltac:(auto)). rewrite <- Hl in *.
  assert (H := pow_pos (length a)). set (p := 256 ^ Z.of_nat (length a)) in *. clearbody p. nia.
Qed.
Lemma value_inj a : forall b, length a = length b -> bytes_ok a -> bytes_ok b -> value a = value b -> a = b.
Proof.
  induction a as [|x a IH]; intros [|y b] Hl Ha Hb HV; try discriminate; auto. cbn [value] in HV.
  inversion Ha; subst. inversion Hb; subst. injection Hl as Hl.
  assert (Va := value_bound a ltac:(auto)). assert (Vb := value_bound b ltac:(auto)). rewrite <- Hl in *.
  assert (H := pow_pos (length a)). set (p := 256 ^ Z.of_nat (length a)) in *. clearbody p.
  assert (x = y) by nia. subst. f_equal. apply IH; auto. lia.
Qed.
Lemma bytes_len n c : length (bytes n c) = n.
Proof. induction n; cbn; auto. Qed.
Lemma byte_range i c : 0 <= byte i c <= 255.
Proof. unfold byte. lia. Qed.
Lemma bytes_range n c : bytes_ok (bytes n c).
Proof. induction n; cbn [bytes]; constructor; auto. apply byte_range. Qed.
Lemma value_bytes n c : value (bytes n c) = c mod 256 ^ Z.of_nat n.
Proof.
  induction n as [|n IH]; cbn [bytes value]; [cbn; rewrite Z.mod_1_r; auto|].
  rewrite bytes_len, IH. unfold byte. assert (H := pow_pos n). rewrite Nat2Z.inj_succ, Z.pow_succ_r by lia.
  rewrite (Z.mul_comm 256). rewrite Z.rem_mul_r by lia. lia.
Qed.
Lemma value_bytes8 c : cost c -> value (bytes 8 c) = c.
Proof. intros H. rewrite value_bytes. apply Z.mod_small. exact H. Qed.

(** the stored byte list of a vector: only the specialisation component is shifted *)
Definition store (v : list Z) : list Z :=
  match v with
  | [a; b; c; d; e; f; g; h] => [a; b; c; d; e; f; g + 255; h]
  | _ => []
  end.
Lemma store_vec c : store (vec c) = bytes 8 c.
Proof. unfold store, vec, get_spec, correctb. cbn [bytes Z.of_nat]. 
  replace (- (255 - byte 1 c) + 255) with (byte 1 c) by lia. reflexivity. Qed.
Lemma vec_range c : in_range (vec c).
Proof.
  unfold in_range, vec, vlo, vhi, get_spec, correctb, get_unsafe, get_implicit, get_poly, get_safe, get_sign, get_var, get_reference.
  split; repeat constructor; try apply byte_range; assert (H := byte_range 1 c); lia.
Qed.
Lemma len8 v : in_range v -> exists a b c d e f g h, v = [a; b; c; d; e; f; g; h] /\
  (0 <= a <= 255 /\ 0 <= b <= 255 /\ 0 <= c <= 255 /\ 0 <= d <= 255) /\ (0 <= e <= 255 /\ 0 <= f <= 255 /\ -255 <= g <= 0 /\ 0 <= h <= 255).
Proof.
  intros [H1 H2]. unfold vlo, vhi in *.
  repeat match goal with H : Forall2 _ (_ :: _) _ |- _ => inversion H; clear H; subst end.
  repeat match goal with H : Forall2 _ [] _ |- _ => inversion H; clear H; subst end.
  repeat match goal with H : Forall2 _ (_ :: _) _ |- _ => inversion H; clear H; subst end.
  do 8 eexists. split; [reflexivity|]. lia.
Qed.
Lemma store_ok v : in_range v -> bytes_ok (store v) /\ length (store v) = 8%nat.
Proof.
  intros H. destruct (len8 v H) as (a & b & c & d & e & f & g & h & -> & H1 & H2). split; auto.
  cbn [store]. repeat constructor; lia.
Qed.
Lemma vec_unique c v : cost c -> in_range v -> value (store v) = c -> vec c = v.
Proof.
  intros Hc Hv E. destruct (store_ok v Hv) as [S1 S2].
  assert (B : store (vec c) = store v).
  { rewrite store_vec. apply value_inj; [rewrite bytes_len; auto|apply bytes_range|auto|rewrite value_bytes8 by auto; auto]. }
  destruct (len8 v Hv) as (a & b & c0 & d & e & f & g & h & -> & _ & _).
  unfold vec in *. cbn [store] in B. injection B. clear. intros. repeat match goal with |- _ :: _ = _ :: _ => apply f_equal2; [lia|] end; try reflexivity.
Qed.
Lemma lex_store u v : in_range u -> in_range v -> lex u v <-> lex (store u) (store v).
Proof.
  intros Hu Hv. destruct (len8 u Hu) as (a & b & c & d & e & f & g & h & -> & _ & _).
  destruct (len8 v Hv) as (a' & b' & c' & d' & e' & f' & g' & h' & -> & _ & _). cbn [store lex]. lia.
Qed.
Lemma lex_word l r : cost l -> cost r -> lex (vec l) (vec r) <-> l < r.
Proof.
  intros Hl Hr. rewrite lex_store by apply vec_range. rewrite !store_vec.
  rewrite value_lex by (rewrite ?bytes_len; auto using bytes_range). rewrite !value_bytes8 by auto. tauto.
Qed.
Lemma vec_inj l r : cost l -> cost r -> vec l = vec r -> l = r.
Proof.
  intros Hl Hr H. rewrite <- (value_bytes8 l), <- (value_bytes8 r) by auto. rewrite <- !store_vec, H. auto.
Qed.

(** order *)
Lemma infinity_cost : cost infinity.
Proof. unfold cost, infinity. change (2 ^ 64) with 18446744073709551616. lia. Qed.
Lemma ltb_finite l r : finite l -> finite r -> ltb l r = true <-> lex (vec l) (vec r).
Proof.
  intros [Hl Fl] [Hr Fr]. rewrite lex_word by auto. unfold ltb.
  destruct (Z.eqb_spec l infinity); [tauto|]. destruct (Z.eqb_spec r infinity); [tauto|]. lia.
Qed.
Lemma ltb_infinity l : ltb infinity l = false /\ (l <> infinity -> ltb l infinity = true).
Proof.
  unfold ltb. rewrite !Z.eqb_refl. split; auto. intros H. destruct (Z.eqb_spec l infinity); tauto.
Qed.
Lemma ltb_irrefl a : ltb a a = false.
Proof. unfold ltb. destruct (a =? infinity); auto. lia. Qed.
Lemma ltb_trans a b c : ltb a b = true -> ltb b c = true -> ltb a c = true.
Proof.
  unfold ltb. destruct (Z.eqb_spec a infinity), (Z.eqb_spec b infinity), (Z.eqb_spec c infinity); auto; try discriminate; lia.
Qed.
Lemma ltb_total a b : ltb a b = true \/ a = b \/ ltb b a = true.
Proof.
  unfold ltb. destruct (Z.eqb_spec a infinity), (Z.eqb_spec b infinity); auto; subst; auto. lia.
Qed.
Lemma leb_total a b : leb a b = true <-> ltb a b = true \/ eqb a b = true.
Proof.
  unfold leb, ltb, eqb. destruct (Z.eqb_spec a infinity), (Z.eqb_spec b infinity); subst; cbn [negb].
  - rewrite Z.eqb_refl. tauto.
  - split; [discriminate|]. intros [H|H]; [discriminate|]. apply Z.eqb_eq in H. congruence.
  - tauto.
  - lia.
Qed.

(** addition *)
Lemma value_store_add u v : in_range u -> in_range v ->
  value (store (vadd u v)) = value (store u) + value (store v) - correctw.
Proof.
  intros Hu Hv. destruct (len8 u Hu) as (a & b & c & d & e & f & g & h & -> & _ & _).
  destruct (len8 v Hv) as (a' & b' & c' & d' & e' & f' & g' & h' & -> & _ & _).
  unfold vadd. cbn [combine map fst snd store value length]. 
  change (256 ^ Z.of_nat 1) with 256. change (256 ^ Z.of_nat 0) with 1. unfold correctw. lia.
Qed.
Lemma add_vec l r : finite l -> finite r -> in_range (vadd (vec l) (vec r)) ->
  vec (add l r) = vadd (vec l) (vec r) /\ cost (add l r).
Proof.
  intros [Hl Fl] [Hr Fr] HV.
  assert (E := value_store_add (vec l) (vec r) (vec_range l) (vec_range r)).
  rewrite !store_vec, !value_bytes8 in E by auto.
  assert (B := value_bound _ (proj1 (store_ok _ HV))). rewrite (proj2 (store_ok _ HV)) in B.
  unfold add. destruct (Z.eqb_spec l infinity); [tauto|]. destruct (Z.eqb_spec r infinity); [tauto|]. cbn [orb].
  change (256 ^ Z.of_nat 8) with (2 ^ 64) in B. unfold M64. rewrite <- E. rewrite Z.mod_small by auto.
  split; [|exact B]. apply vec_unique; auto.
Qed.
Lemma add_comm l r : add l r = add r l.
Proof. unfold add. rewrite orb_comm. destruct (_ || _); auto. f_equal. lia. Qed.
Lemma add_zero c : cost c -> add c zero = c /\ add zero c = c.
Proof.
  intros H. rewrite (add_comm zero c). enough (add c zero = c) by auto. unfold add.
  destruct (Z.eqb_spec c infinity) as [->|]; auto. change (zero =? infinity) with false. cbn [orb].
  unfold zero, correctw. replace (c + 65280 - 65280) with c by lia. apply Z.mod_small. exact H.
Qed.
Lemma add_infinity c : add c infinity = infinity /\ add infinity c = infinity.
Proof. unfold add. rewrite Z.eqb_refl, orb_true_r. auto. Qed.
Lemma add_assign_ok l r : add_assign l r = add l r.
Proof.
  unfold add_assign, add. destruct (Z.eqb_spec l infinity); auto. destruct (Z.eqb_spec r infinity); auto. cbn [orb].
  rewrite Z.add_mod_idemp_r by (unfold M64; lia). f_equal. lia.
Qed.
Lemma vadd_assoc u v w : in_range u -> in_range v -> in_range w -> vadd u (vadd v w) = vadd (vadd u v) w.
Proof.
  intros Hu Hv Hw. destruct (len8 u Hu) as (? & ? & ? & ? & ? & ? & ? & ? & -> & _ & _).
  destruct (len8 v Hv) as (? & ? & ? & ? & ? & ? & ? & ? & -> & _ & _).
  destruct (len8 w Hw) as (? & ? & ? & ? & ? & ? & ? & ? & -> & _ & _).
  unfold vadd. cbn. rewrite !Z.add_assoc. reflexivity.
Qed.
Lemma in_range_sub u v : in_range u -> in_range v -> forall w, in_range w -> in_range (vadd (vadd u v) w) -> in_range (vadd u v).
Proof.
  intros Hu Hv w Hw HV. destruct (len8 u Hu) as (? & ? & ? & ? & ? & ? & ? & ? & -> & R1 & R2).
  destruct (len8 v Hv) as (? & ? & ? & ? & ? & ? & ? & ? & -> & R3 & R4).
  destruct (len8 w Hw) as (? & ? & ? & ? & ? & ? & ? & ? & -> & R5 & R6).
  unfold vadd in *. cbn [combine map fst snd] in *.
  destruct (len8 _ HV) as (? & ? & ? & ? & ? & ? & ? & ? & E & R7 & R8). injection E. intros.
  unfold in_range, vlo, vhi. split; repeat constructor; lia.
Qed.
Lemma add_assoc a b c : finite a -> finite b -> finite c -> in_range (vadd (vadd (vec a) (vec b)) (vec c)) ->
  add a b <> infinity -> add b c <> infinity -> add a (add b c) = add (add a b) c.
Proof.
  intros Ha Hb Hc HV Nab Nbc.
  assert (Rab := in_range_sub _ _ (vec_range a) (vec_range b) _ (vec_range c) HV).
  assert (HV' := HV). rewrite <- vadd_assoc in HV' by apply vec_range.
  assert (Rbc : in_range (vadd (vec b) (vec c))).
  { assert (C : vadd (vec a) (vadd (vec b) (vec c)) = vadd (vadd (vec b) (vec c)) (vec a)).
    { unfold vadd, vec. cbn [combine map fst snd].
      f_equal; [lia|f_equal; [lia|f_equal; [lia|f_equal; [lia|f_equal; [lia|f_equal; [lia|f_equal; [lia|f_equal; lia]]]]]]]. }
    rewrite C in HV'. exact (in_range_sub _ _ (vec_range b) (vec_range c) _ (vec_range a) HV'). }
  destruct (add_vec a b Ha Hb Rab) as [Vab Cab]. destruct (add_vec b c Hb Hc Rbc) as [Vbc Cbc].
  destruct (add_vec (add a b) c) as [V1 C1]; [split; auto|auto|rewrite Vab; auto|].
  destruct (add_vec a (add b c)) as [V2 C2]; [auto|split; auto|rewrite Vbc; auto|].
  apply vec_inj; auto. rewrite V1, V2, Vab, Vbc. apply vadd_assoc; apply vec_range.
Qed.
Lemma add_mono a b c : finite a -> finite b -> finite c -> in_range (vadd (vec a) (vec c)) -> in_range (vadd (vec b) (vec c)) ->
  add a c <> infinity -> ltb a b = true -> ltb (add a c) (add b c) = true.
Proof.
  intros Ha Hb Hc R1 R2 N H.
  destruct (add_vec a c Ha Hc R1) as [V1 C1]. destruct (add_vec b c Hb Hc R2) as [V2 C2].
  unfold ltb. destruct (Z.eqb_spec (add a c) infinity); [tauto|]. destruct (Z.eqb_spec (add b c) infinity); auto.
  apply Z.ltb_lt. apply lex_word; auto. rewrite V1, V2.
  apply ltb_finite in H; auto. revert H. unfold vadd, vec. cbn [combine map fst snd lex]. lia.
Qed.

(** mutators *)
Lemma byte_alt i c : 0 <= i -> c = c / 256 ^ (i + 1) * 256 ^ (i + 1) + byte i c * 256 ^ i + c mod 256 ^ i.
Proof.
  intros Hi. unfold byte. assert (H : 0 < 256 ^ i) by (apply Z.pow_pos_nonneg; lia).
  rewrite Z.pow_add_r by lia. change (256 ^ 1) with 256.
  rewrite <- Z.div_div by lia. assert (E := Z.div_mod c (256 ^ i) ltac:(lia)).
  assert (E2 := Z.div_mod (c / 256 ^ i) 256 ltac:(lia)).
  set (p := 256 ^ i) in *. set (q := c / p) in *. rewrite E at 1. rewrite E2 at 1. ring.
Qed.
Lemma set_byte i c x : 0 <= i <= 7 -> cost c -> 0 <= x <= 255 ->
  let c' := c - byte i c * 256 ^ i + x * 256 ^ i in
  cost c' /\ byte i c' = x /\ forall j, 0 <= j <= 7 -> j <> i -> byte j c' = byte j c.
Proof.
  intros Hi Hc Hx c'. unfold c'. clear c'. assert (A := byte_alt i c ltac:(lia)).
  assert (Bb := byte_range i c). set (b := byte i c) in *.
  assert (P : 0 < 256 ^ i) by (apply Z.pow_pos_nonneg; lia).
  assert (Lo := Z.mod_pos_bound c (256 ^ i) P).
  assert (E : c - b * 256 ^ i + x * 256 ^ i = c / 256 ^ (i + 1) * 256 ^ (i + 1) + x * 256 ^ i + c mod 256 ^ i) by lia.
  rewrite E. clear E.
  set (hi := c / 256 ^ (i + 1)) in *. set (lo := c mod 256 ^ i) in *.
  assert (Q : 256 ^ (i + 1) = 256 * 256 ^ i) by (rewrite Z.pow_add_r by lia; lia).
  assert (Hhi : 0 <= hi) by (unfold hi; apply Z.div_pos; unfold cost in Hc; lia).
  assert (Hhi2 : (hi + 1) * 256 ^ (i + 1) <= 2 ^ 64).
  { assert (hi < 256 ^ (7 - i)).
    { unfold hi. apply Z.div_lt_upper_bound; [lia|]. rewrite <- Z.pow_add_r by lia.
      replace (i + 1 + (7 - i)) with 8 by lia. change (256 ^ 8) with (2 ^ 64). unfold cost in Hc. lia. }
    replace (2 ^ 64) with (256 ^ (7 - i) * 256 ^ (i + 1)) by (rewrite <- Z.pow_add_r by lia; replace (7 - i + (i + 1)) with 8 by lia; reflexivity).
    apply Z.mul_le_mono_nonneg_r; lia. }
  split; [|split].
  - unfold cost. set (p := 256 ^ i) in *. rewrite Q in *. clearbody p lo hi. nia.
  - unfold byte. rewrite Q. replace (hi * (256 * 256 ^ i) + x * 256 ^ i + lo) with (lo + (hi * 256 + x) * 256 ^ i) by ring.
    rewrite Z.div_add by lia. rewrite (Z.div_small lo) by lia. rewrite Z.add_0_l, Z.add_comm, Z.mod_add by lia. apply Z.mod_small; lia.
  - intros j Hj Hne. rewrite A at 1. unfold byte. destruct (Z.lt_ge_cases j i) as [Hlt|Hge].
    + (* lower byte: both words agree modulo 256^i *)
      assert (Dv : exists m, 256 ^ i = m * (256 ^ (j + 1)) ).
      { exists (256 ^ (i - (j + 1))). rewrite <- Z.pow_add_r by lia. f_equal; lia. }
      destruct Dv as [m Hm]. rewrite Z.pow_add_r in Hm by lia. change (256 ^ 1) with 256 in Hm.
      assert (Pj : 0 < 256 ^ j) by (apply Z.pow_pos_nonneg; lia).
      rewrite Q, Hm. set (p := 256 ^ j) in *.
      replace (hi * (256 * (m * (p * 256))) + x * (m * (p * 256)) + lo) with (lo + ((hi * 256 + x) * m * 256) * p) by ring.
      replace (hi * (256 * (m * (p * 256))) + b * (m * (p * 256)) + lo) with (lo + ((hi * 256 + b) * m * 256) * p) by ring.
      rewrite !Z.div_add by lia. rewrite !Z.mod_add by lia. reflexivity.
    + assert (Hj1 : i + 1 <= j) by lia.
      assert (Dv : 256 ^ j = 256 ^ (i + 1) * 256 ^ (j - (i + 1))) by (rewrite <- Z.pow_add_r by lia; f_equal; lia).
      assert (P2 : 0 < 256 ^ (j - (i + 1))) by (apply Z.pow_pos_nonneg; lia).
      rewrite Dv, <- !Z.div_div by lia. do 2 f_equal.
      rewrite Q. set (p := 256 ^ i) in *. 
      replace (hi * (256 * p) + x * p + lo) with (x * p + lo + hi * (256 * p)) by ring.
      replace (hi * (256 * p) + b * p + lo) with (b * p + lo + hi * (256 * p)) by ring.
      rewrite !Z.div_add by lia. rewrite !Z.div_small; auto; nia.
Qed.
Lemma inc_ok i c n c' : 0 <= i <= 7 -> finite c -> 0 <= n -> inc i c n = Some c' ->
  cost c' /\ byte i c' = byte i c + n /\ forall j, 0 <= j <= 7 -> j <> i -> byte j c' = byte j c.
Proof.
  intros Hi [Hc Fc] Hn H. unfold inc in H. destruct (Z.eqb_spec c infinity); [tauto|].
  destruct (Z.leb_spec (byte i c + n) 255) as [L|L]; [|discriminate]. injection H as <-.
  assert (B := byte_range i c). rewrite Z.mod_small by lia. apply set_byte; auto. lia.
Qed.
Lemma decSpec_ok c n c' : finite c -> 0 <= n -> decSpec c n = Some c' ->
  cost c' /\ byte 1 c' = byte 1 c - n /\ forall j, 0 <= j <= 7 -> j <> 1 -> byte j c' = byte j c.
Proof.
  intros [Hc Fc] Hn H. unfold decSpec in H. destruct (Z.eqb_spec c infinity); [tauto|].
  destruct (Z.leb_spec 0 (byte 1 c - n)) as [L|L]; [|discriminate]. injection H as <-.
  assert (B := byte_range 1 c). rewrite Z.mod_small by lia. apply (set_byte 1); auto; lia.
Qed.
Definition unit_vec (k : nat) (n : Z) : list Z := map (fun j => if Nat.eqb j k then n else 0) (seq 0 8).
Lemma inc_vec (f : Z -> Z -> option Z) k : In (f, k) [(incUnsafe, 0%nat); (incImplicit, 1%nat); (incPoly, 2%nat); (incSafe, 3%nat); (incSign, 4%nat); (incVar, 5%nat); (incReference, 7%nat)] ->
  forall c n c', finite c -> 0 <= n -> f c n = Some c' -> vec c' = vadd (vec c) (unit_vec k n) /\ cost c'.
Proof.
  intros Hin c n c' Hc Hn H. cbn [In] in Hin.
  assert (G : forall i, 0 <= i <= 7 -> inc i c n = Some c' -> forall j, 0 <= j <= 7 -> byte j c' = byte j c + (if j =? i then n else 0)).
  { intros i Hi Hf j Hj. destruct (inc_ok i c n c' Hi Hc Hn Hf) as (_ & E1 & E2).
    destruct (Z.eqb_spec j i) as [->|]; auto. rewrite E2 by auto. lia. }
  assert (C : forall i, 0 <= i <= 7 -> inc i c n = Some c' -> cost c').
  { intros i Hi Hf. apply (inc_ok i c n c' Hi Hc Hn Hf). }
  assert (D : forall i, 0 <= i <= 7 -> i <> 1 -> inc i c n = Some c' -> vec c' = vadd (vec c) (unit_vec (Z.to_nat (7 - i)) n)).
  { intros i Hi H1 Hf. unfold vadd, vec, get_spec, get_unsafe, get_implicit, get_poly, get_safe, get_sign, get_var, get_reference.
    cbn [unit_vec seq map combine fst snd]. rewrite !(G i Hi Hf) by lia.
    assert (K : i = 0 \/ i = 2 \/ i = 3 \/ i = 4 \/ i = 5 \/ i = 6 \/ i = 7) by lia.
    repeat destruct K as [->|K]; [..|subst i];
    (cbn [Z.eqb Pos.eqb]; unfold unit_vec; cbn [seq map combine fst snd];
     repeat match goal with |- context [Z.to_nat ?e] =>
       let v := eval vm_compute in (Z.to_nat e) in change (Z.to_nat e) with v end;
     cbn [Nat.eqb]; repeat match goal with |- _ :: _ = _ :: _ => apply f_equal2; [lia|] end; try reflexivity). }
  repeat (destruct Hin as [Hin|Hin]; [apply pair_equal_spec in Hin; destruct Hin as [<- <-]; split;
    [apply D in H; [exact H|lia|lia]|eapply C; [|exact H]; lia]|]).
  destruct Hin.
Qed.
Lemma decSpec_vec c n c' : finite c -> 0 <= n -> decSpec c n = Some c' -> vec c' = vadd (vec c) (unit_vec 6 (- n)) /\ cost c'.
Proof.
  intros Hc Hn H. destruct (decSpec_ok c n c' Hc Hn H) as (C & E1 & E2). split; auto.
  unfold vadd, vec, get_spec, get_unsafe, get_implicit, get_poly, get_safe, get_sign, get_var, get_reference, correctb.
  cbn [unit_vec seq map combine fst snd Nat.eqb]. rewrite E1, !E2 by lia. rewrite !Z.add_0_r.
  repeat match goal with |- _ :: _ = _ :: _ => apply f_equal2; [lia|] end; try reflexivity.
Qed.

(** comparison *)
Lemma compare_ok l r : ~ (l = infinity /\ r = infinity) ->
  (compare l r < 0 <-> ltb l r = true) /\ (compare l r = 0 <-> eqb l r = true) /\ (compare l r > 0 <-> ltb r l = true).
Proof.
  intros H. unfold compare, ltb, eqb. destruct (Z.eqb_spec l infinity), (Z.eqb_spec r infinity); [tauto|..]; subst.
  - split; [lia|]. split; [rewrite Z.eqb_eq; split; [lia|congruence]|]. split; auto; lia.
  - split; [split; auto; lia|]. split; [|lia]. rewrite Z.eqb_eq. split; [lia|congruence].
  - destruct (Z.ltb_spec r l), (Z.eqb_spec l r); lia.
Qed.
Lemma mk_vec a b c d e f g h : in_range [a; e; b; c; d; f; g; h] ->
  vec (mk a b c d e f g h) = [a; e; b; c; d; f; g; h] /\ cost (mk a b c d e f g h).
Proof.
  intros HV. destruct (store_ok _ HV) as [S1 S2]. assert (B := value_bound _ S1). rewrite S2 in B.
  assert (V : value (store [a; e; b; c; d; f; g; h]) = mk a b c d e f g h).
  { destruct (len8 _ HV) as (? & ? & ? & ? & ? & ? & ? & ? & E & R1 & R2). injection E; intros; subst.
    unfold mk, correctb. rewrite !Z.mod_small by lia. cbn [store value length Z.of_nat Pos.of_succ_nat Pos.succ]. lia. }
  change (256 ^ Z.of_nat 8) with (2 ^ 64) in B. rewrite V in B. split; auto. apply vec_unique; auto.
Qed.
