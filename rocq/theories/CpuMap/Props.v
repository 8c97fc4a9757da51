From Coq Require Import Ascii String ZArith List Bool Arith Lia Permutation.
From Verif Require Import CpuMap.Model CpuMap.Spec CpuMap.Range CpuMap.Proofs.
Import ListNotations.
Local Notation "'t' s" := (list_ascii_of_string s%string) (at level 0, s at level 0).
Local Open Scope Z_scope.

(** C106: the generator delivers exactly the numbers of a list of ranges, in order *)
Theorem C106_iter rs : rs <> [] -> Forall wf rs -> range_iter (list_text rs) = (elements rs, Done).
Proof. intros N W. apply iter_list; try assumption. lia. Qed.
Print Assumptions C106_iter.
Example C106_iter_ex : range_iter (t "0-3,8,10-011") = ([0; 1; 2; 3; 8; 10; 11], Done) /\ list_text [R (t "0") (Some (t "3")); R (t "8") None; R (t "10") (Some (t "011"))] = t "0-3,8,10-011".
Proof. vm_compute. auto. Qed.

(** the generator accepts only such lists (empty pieces between commas are skipped), and ends on every text *)
Theorem C106_sound x l : range_iter x = (l, Done) -> exists rs, Forall wf rs /\ map render rs = filter nonempty (split x) /\ l = elements rs.
Proof. apply iter_sound. Qed.
Print Assumptions C106_sound.
Theorem C106_total x : snd (range_iter x) <> Fuel.
Proof. apply iter_fuel. lia. Qed.
Print Assumptions C106_total.
Example C106_sound_ex : range_iter (t ",1,,3-4") = ([1; 3; 4], Done) /\ range_iter (t "1,") = ([1], Exit) /\ range_iter (t "1x") = ([1], Exit) /\ range_iter (t "1-2-3") = ([1; 2], Exit) /\ range_iter [] = ([], Exit).
Proof. vm_compute. auto 8. Qed.

(** a range whose end is before its start ends the program, after the numbers before it *)
Theorem C106_order rs l h : Forall wf rs -> number l -> number h -> val h < val l < 2 ^ 31 - 1 -> range_iter (list_text (rs ++ [R l (Some h)])) = (elements rs, Exit).
Proof. intros. apply iter_bad; try assumption. lia. Qed.
Print Assumptions C106_order.
Example C106_order_ex : range_iter (t "0-1,5-4") = ([0; 1], Exit). Proof. vm_compute. reflexivity. Qed.

(** the width of a list is the number of its numbers, with any number of commas *)
Theorem C106_width rs : rs <> [] -> Forall wf rs -> read_width (list_text rs) = Some (Z.of_nat (length (elements rs)) mod 2 ^ 32).
Proof. intros N W. apply width_list; try assumption. lia. Qed.
Print Assumptions C106_width.
Example C106_width_ex : read_width (t "0-3,8,10-11") = Some 7. Proof. vm_compute. reflexivity. Qed.

(** C107: the map of a machine whose processors 0..n-1 are all online; q: the pairs in any order that qsort may give *)
Theorem C107_map n llc rs : topology n llc -> Z.of_nat n < 2 ^ 32 -> rs <> [] -> Forall wf rs -> elements rs = cpus_of n ->
  exists maps p, prepare (list_text rs) llc = Some (n, seq 0 n, maps, p) /\
    NoDup maps /\ (forall x, In x maps <-> exists c, (c < n)%nat /\ llc c = x) /\
    forall q, Permutation p q -> sorted q -> exists en, finish n (seq 0 n) maps q = Some en /\
      (forall c, (c < n)%nat -> exists e, en c = Some e /\ nth_error maps (cache e) = Some (llc c) /\ count e = length (sharing n llc c) /\
         (start e <= self e < start e + count e)%nat /\ (start e + count e <= n)%nat) /\
      (forall i, (i < n)%nat -> exists c e, (c < n)%nat /\ en c = Some e /\ self e = i) /\
      (forall c d e f, (c < n)%nat -> (d < n)%nat -> en c = Some e -> en d = Some f ->
         (self e = self f -> c = d) /\ (llc c = llc d -> start e = start f /\ cache e = cache f) /\
         (llc c <> llc d -> (start e + count e <= start f \/ start f + count f <= start e)%nat)).
Proof.
  intros T B N W El. exists (distinct (map llc (seq 0 n))), (map (fun c => (c, id_of (distinct (map llc (seq 0 n))) llc c)) (seq 0 n)).
  split; [apply prepare_ok; assumption|]. destruct (distinct_ok (map llc (seq 0 n))) as [D1 D2]. split; [exact D1|]. split.
  { intros x. rewrite D2, in_map_iff. split; intros (c & A & C); exists c; [apply in_seq in C; split; [lia|exact A]|split; [exact C|apply in_seq; lia]]. }
  intros q P S0. destruct (finish_ok n llc T B q P S0) as (en & F & H). exists en. split; [exact F|].
  set (maps := distinct (map llc (seq 0 n))) in *.
  assert (Lq : length q = n) by (rewrite <- (Permutation_length P), map_length, seq_length; reflexivity).
  assert (Pos : forall c, (c < n)%nat -> exists i, (i < n)%nat /\ nth_error q i = Some (c, id_of maps llc c)).
  { intros c L. assert (I0 : In (c, id_of maps llc c) q) by (apply (Permutation_in _ P), in_map_iff; exists c; split; [reflexivity|apply in_seq; lia]).
    apply In_nth_error in I0 as (i & I1). exists i. split; [rewrite <- Lq; apply nth_error_Some; congruence|exact I1]. }
  assert (Im : forall c, (c < n)%nat -> In (llc c) maps) by (intros; apply in_maps; assumption).
  assert (Cnt : forall c, (c < n)%nat -> cnteq (id_of maps llc c) q = length (sharing n llc c)).
  { intros c L. rewrite (cnteq_perm n llc _ q P). apply cnteq_p; assumption. }
  assert (Ent : forall c, (c < n)%nat -> exists i, (i < n)%nat /\ nth_error q i = Some (c, id_of maps llc c) /\
            en c = Some (E i (cntlt (id_of maps llc c) q) (length (sharing n llc c)) (id_of maps llc c)) /\
            (cntlt (id_of maps llc c) q <= i < cntlt (id_of maps llc c) q + length (sharing n llc c))%nat /\ (cntlt (id_of maps llc c) q + length (sharing n llc c) <= n)%nat).
  { intros c L. destruct (Pos c L) as (i & Li & Ni). exists i. split; [exact Li|]. split; [exact Ni|]. destruct (H i c _ Ni) as (_ & _ & ->). split; [reflexivity|].
    rewrite <- (Cnt c L). apply nth_error_split in Ni as (pre & post & Eq & Lp). set (k := id_of maps llc c) in *.
    assert (S1 := S0). rewrite Eq in S1. apply sorted_mid in S1 as [P1 P2]. cbn [snd] in *.
    assert (A := cnt_all k pre P1). assert (Z0 : cntlt k ((c, k) :: post) = O) by (apply cntlt_0; intros x [<-|X]; [cbn; lia|apply P2, X]).
    assert (C1 : cntlt k q = cntlt k pre) by (rewrite Eq, cntlt_app; lia).
    assert (C2 : (cnteq k pre < cnteq k q)%nat). { rewrite Eq, cnteq_app. change ((c, k) :: post) with ([(c, k)] ++ post). rewrite cnteq_app. unfold cnteq at 3. cbn [filter snd]. rewrite Nat.eqb_refl. cbn [length]. lia. }
    split; [lia|]. rewrite <- cntlt_S, <- Lq. unfold cntlt. apply filter_len_le. }
  split; [|split].
  - intros c L. destruct (Ent c L) as (i & Li & Ni & En & R1 & R2). eexists. split; [exact En|]. cbn [cache count start self]. split; [apply id_nth, Im, L|]. auto.
  - intros i Li. destruct (nth_error q i) as [[c k]|] eqn:Ni; [|apply nth_error_None in Ni; lia]. destruct (H i c k Ni) as (L & _ & En). exists c. eexists. split; [exact L|]. split; [exact En|reflexivity].
  - intros c d e f Lc Ld Ec Ed. destruct (Ent c Lc) as (i & Li & Ni & En & R1 & R2). destruct (Ent d Ld) as (j & Lj & Nj & En' & R1' & R2').
    rewrite En in Ec. rewrite En' in Ed. injection Ec as <-. injection Ed as <-. cbn [cache count start self]. split; [intros ->; congruence|]. split.
    + intros Q. apply (id_eq maps llc c d (Im c Lc) (Im d Ld)) in Q. rewrite Q. auto.
    + intros Q. assert (Q' : id_of maps llc c <> id_of maps llc d) by (intros X; apply Q, (id_eq maps llc c d (Im c Lc) (Im d Ld)), X).
      rewrite <- (Cnt c Lc), <- (Cnt d Ld), <- !cntlt_S.
      assert (Mono : forall a b, (a < b)%nat -> (cntlt (S a) q <= cntlt b q)%nat).
      { intros a b L. unfold cntlt. clear -L. induction q as [|x q IH]; [cbn; lia|]. cbn [filter]. destruct (Nat.ltb_spec (snd x) (S a)), (Nat.ltb_spec (snd x) b); cbn [length]; lia. }
      destruct (Nat.lt_total (id_of maps llc c) (id_of maps llc d)) as [X|[X|X]]; [left; apply Mono, X|contradiction|right; apply Mono, X].
Qed.
Print Assumptions C107_map.
Definition ex_llc (c : nat) : text := if Nat.even c then t "0,2,4" else t "1,3".
Example C107_map_ex :
  match prepare (t "0-4") ex_llc with
  | Some (n, cpus, maps, p) =>
      n = 5%nat /\ maps = [t "0,2,4"; t "1,3"] /\ p = [(0, 0); (1, 1); (2, 0); (3, 1); (4, 0)]%nat /\
      match finish n cpus maps [(4, 0); (0, 0); (2, 0); (1, 1); (3, 1)]%nat with
      | Some en => map en [0; 1; 2; 3; 4; 5]%nat = [Some (E 1 0 3 0); Some (E 3 3 2 1); Some (E 2 0 3 0); Some (E 4 3 2 1); Some (E 0 0 3 0); None]
      | None => False
      end
  | None => False
  end.
Proof. vm_compute. auto. Qed.
Example C107_topology_ex : topology 5 ex_llc.
Proof.
  split; [lia|]. intros c L.
  assert (W : forall a, In a [t "0"; t "1"; t "2"; t "3"; t "4"] -> wf (R a None)).
  { intros a A. cbn in A. repeat (destruct A as [<-|A]; [split; [split; [discriminate|repeat constructor; vm_compute; discriminate]|split; [reflexivity|exact Logic.I]]|]). destruct A. }
  destruct c as [|[|[|[|[|c]]]]]; try lia;
    [exists [R (t "0") None; R (t "2") None; R (t "4") None]|exists [R (t "1") None; R (t "3") None]|exists [R (t "0") None; R (t "2") None; R (t "4") None]|exists [R (t "1") None; R (t "3") None]|exists [R (t "0") None; R (t "2") None; R (t "4") None]];
    (split; [discriminate|]; split; [repeat (apply Forall_cons; [apply W; cbn; auto 8|]); apply Forall_nil|]; split; vm_compute; reflexivity).
Qed.

(** with a processor offline the numbers go beyond the arrays, which have as many elements as there are processors online *)
Theorem C107_offline rs llc : rs <> [] -> Forall wf rs -> Z.of_nat (length (elements rs)) < 2 ^ 32 -> (exists x, In x (elements rs) /\ Z.of_nat (length (elements rs)) <= x) ->
  prepare (list_text rs) llc = None.
Proof.
  intros N W B (x & X & Hx). unfold prepare. rewrite C106_iter, C106_width by assumption. rewrite Z.mod_small, Nat2Z.id by lia. cbv zeta.
  assert (Out : In (Z.to_nat x) (map Z.to_nat (elements rs))) by (apply in_map, X). assert (Big : (length (elements rs) <= Z.to_nat x)%nat) by lia.
  assert (G : forall n y l, In y l -> (n <= y)%nat -> raw_table n l llc = None).
  { clear. intros n y l Y Z0. unfold raw_table. generalize (Some (fun _ : nat => @None text)) as acc.
    assert (Nn : forall l, fold_left (fun acc i => match acc with Some f => if Nat.ltb i n then Some (upd f i (llc i)) else None | None => None end) l (@None (nat -> option text)) = None) by (intros l'; induction l'; auto).
    induction l as [|i l IH]; intros acc; [destruct Y|]. cbn [fold_left]. destruct Y as [->|Y].
    - destruct acc as [f|]; [|rewrite Nn; reflexivity]. destruct (Nat.ltb_spec y n); [lia|]. rewrite Nn. reflexivity.
    - apply IH; assumption. }
  rewrite (G _ _ _ Out Big). reflexivity.
Qed.
Print Assumptions C107_offline.
Example C107_offline_ex : prepare (t "0,2-3") (fun _ => t "0,2-3") = None. Proof. vm_compute. reflexivity. Qed.
Theorem C107_online_refuted : ~ (forall rs llc, rs <> [] -> Forall wf rs -> NoDup (elements rs) -> prepare (list_text rs) llc <> None).
Proof.
  intros H. apply (H [R (t "0") None; R (t "2") None] (fun _ => t "0,2")); [discriminate| | |vm_compute; reflexivity].
  - repeat constructor; try discriminate; vm_compute; discriminate.
  - vm_compute. repeat constructor; cbn; intuition discriminate.
Qed.
Print Assumptions C107_online_refuted.
