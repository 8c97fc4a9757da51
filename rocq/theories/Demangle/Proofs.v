From Coq Require Import Decimal DecimalNat DecimalN Ascii String List Bool Arith ZArith Lia ZifyBool.
From Verif.Mangle Require Import Model Spec Proofs.
From Verif.Demangle Require Import Model Spec.
Import ListNotations.
Open Scope string_scope.
Open Scope list_scope.
Open Scope Z_scope.
Definition full := Md false true.
Lemma size_app : forall a b, size (a ++ b) = size a + size b.
Proof. intros. unfold size. rewrite app_length. lia. Qed.
Lemma size_pos : forall a, 0 <= size a.
Proof. intros. unfold size. lia. Qed.
Lemma rest_app : forall s i a b, 0 <= i -> rest s i = a ++ b -> rest s (i + size a) = b.
Proof.
  unfold rest, size. intros s i a b I H. replace (Z.to_nat (i + Z.of_nat (length a))) with (length a + Z.to_nat i)%nat by lia. assert (S : forall n m (l : str), skipn (n + m) l = skipn n (skipn m l)).
  { intros n m. revert n. induction m as [|m IH]; intros n l; [rewrite Nat.add_0_r; auto|]. rewrite Nat.add_succ_r. destruct l; cbn [skipn]; [rewrite skipn_nil; auto|]. apply IH. }
  rewrite S, H, skipn_app, skipn_all, Nat.sub_diag. auto.
Qed.
Lemma rest_size : forall s i, 0 <= i -> size (rest s i) = Z.max 0 (size s - i).
Proof. intros s i I. unfold rest, size. rewrite skipn_length. lia. Qed.
Lemma done_no : forall s i c r, 0 <= i -> rest s i = c :: r -> done s i = false.
Proof. intros s i c r I H. unfold done. pose proof (rest_size s i I) as S. rewrite H in S. unfold size in S at 1. cbn [length] in S. lia. Qed.
Lemma prefixb_app : forall p r, prefixb p (p ++ r) = true.
Proof. induction p as [|c p IH]; intros r; cbn [prefixb app]; auto. rewrite Ascii.eqb_refl. cbn [andb]. auto. Qed.
Lemma hit : forall s i p r, rest s i = p ++ r -> is_prefix s i p = Some (i + size p).
Proof. intros s i p r H. unfold is_prefix. rewrite H, prefixb_app. auto. Qed.
Lemma prefixb_pre : forall p x r, prefixb p (x ++ r) = true -> pre p x = true \/ pre x p = true.
Proof.
  induction p as [|c p IH]; intros [|d x] r H; cbn [pre prefixb app] in *; auto. apply andb_prop in H. destruct H as [H1 H2]. rewrite H1. apply Ascii.eqb_eq in H1. subst. rewrite Ascii.eqb_refl. cbn [andb]. eauto.
Qed.
Definition apart (p x : str) : bool := negb (pre p x) && negb (pre x p).
Lemma miss : forall s i p x r, rest s i = x ++ r -> apart p x = true -> is_prefix s i p = None.
Proof.
  intros s i p x r H A. unfold is_prefix. rewrite H. destruct (prefixb p (x ++ r)) eqn:E; auto. apply prefixb_pre in E. unfold apart in A. destruct E as [E|E]; rewrite E in A; cbn in A; try rewrite andb_false_r in A; discriminate.
Qed.
Lemma expect_hit : forall s i c r, rest s i = c :: r -> expect s i c = Some (i + 1).
Proof. intros s i c r H. unfold expect. rewrite H, Ascii.eqb_refl. auto. Qed.
(** numbers and names *)
Lemma span_app : forall d r, alldig d = true -> heads nodig r -> span (d ++ r) = d.
Proof.
  induction d as [|c d IH]; cbn [alldig app span]; intros r D H.
  - destruct r as [|c r]; auto. cbn [span heads] in *. unfold nodig in H. change (isdig c) with (isdigit c). destruct (isdigit c); auto; discriminate.
  - apply andb_prop in D. change (isdig c) with (isdigit c). rewrite (proj1 D), IH; tauto.
Qed.
Lemma value_digits : forall u acc, value (digits u) (Z.of_nat acc) = Z.of_nat (Nat.of_uint_acc u acc).
Proof.
  induction u; intros acc; cbn [digits value Nat.of_uint_acc]; auto; rewrite <- IHu; f_equal; rewrite Nat.tail_mul_spec; vm_compute (Z.of_nat (nat_of_ascii (ch _)) - 48); lia.
Qed.
Lemma value_num : forall n, value (num n) 0 = Z.of_nat n.
Proof. intros n. unfold num. change 0 with (Z.of_nat 0). rewrite value_digits. f_equal. apply (DecimalNat.Unsigned.of_to n). Qed.
Lemma num_cons : forall n, exists c d, num n = c :: d.
Proof.
  intros n. destruct (num n) as [|c d] eqn:E; eauto. exfalso. unfold num in E. assert (U : Nat.to_uint n = Nil) by (apply digits_inj; rewrite E; auto). pose proof (DecimalNat.Unsigned.of_to n) as O. rewrite U in O. cbn in O. subst n. discriminate U.
Qed.
Lemma number_ok : forall s i n r, rest s i = num n ++ r -> heads nodig r -> Z.of_nat n < two64 -> number s i = Some (Z.of_nat n, i + size (num n)).
Proof.
  intros s i n r H N B. unfold number. rewrite H, span_app; auto; [|apply digits_dig]. rewrite value_num. destruct (num_cons n) as (c & d & E). rewrite E. rewrite (proj2 (Z.ltb_lt _ _) B). auto.
Qed.
Lemma name_ok_ : forall s i n r, 0 <= i -> rest s i = lenname n ++ r -> name_ok n = true -> heads nodig r -> size s < 2 ^ 32 -> name s i = Some (n, i + size (lenname n)).
Proof.
  intros s i n r I H O N B. unfold lenname in H. rewrite <- app_assoc in H. pose proof (rest_size s i I) as S. rewrite H, !size_app in S. pose proof (size_pos (num (length n))). pose proof (size_pos n). pose proof (size_pos r). destruct (num_cons (length n)) as (c & d & E). assert (P : 0 < size (num (length n))) by (rewrite E; unfold size; cbn [length]; lia). change (2 ^ 32) with 4294967296 in B.
  unfold name. rewrite (number_ok s i (length n) (n ++ r)); auto using heads_name; [|unfold two64, size in *; lia]. rewrite (rest_app s i (num (length n)) (n ++ r)) by auto.
  assert (M : (i + size (num (length n)) + Z.of_nat (length n)) mod two64 = i + size (lenname n)). { unfold lenname. rewrite size_app. change (Z.of_nat (length n)) with (size n). rewrite Z.mod_small; [lia|]. unfold two64. lia. }
  rewrite M. unfold lenname. rewrite size_app. destruct (size s <? i + (size (num (length n)) + size n)) eqn:L; [lia|]. do 2 f_equal. replace (Z.to_nat (Z.min (Z.of_nat (length n)) (size s - (i + size (num (length n)))))) with (length n) by (unfold size in *; lia). rewrite firstn_app, firstn_all, Nat.sub_diag. apply app_nil_r.
Qed.
(** qualifiers *)
Definition clean (x : str) : bool := forallb (fun p => apart #p x) ["K"; "V"; "X"; "DA"; "Q"].
Definition qto (k : nat) s i q q' j := forall n, (k <= n)%nat -> quals_ n s i q = (q', j).
Lemma qto_stop : forall s i x r q, rest s i = x ++ r -> clean x = true -> qto 0 s i q q i.
Proof.
  intros s i x r q H C n _. destruct n as [|n]; auto. unfold clean in C. cbn [forallb] in C. repeat match type of C with _ && _ = true => apply andb_prop in C; destruct C as [? C] end. cbn [quals_]. rewrite !(miss s i _ x r) by auto. auto.
Qed.
Lemma qto_K : forall k s i r q q' j, 0 <= i -> rest s i = #"K" ++ r -> (rest s (i + 1) = r -> qto k s (i + 1) (Q true (is_volatile q) (is_atomic q) (is_mutex q)) q' j) -> qto (S k) s i q q' j.
Proof. intros k s i r q q' j I H C n L. destruct n as [|n]; [lia|]. cbn [quals_]. rewrite (hit s i _ r H). apply C; [|lia]. apply (rest_app s i #"K" r I H). Qed.
Lemma qto_V : forall k s i r q q' j, 0 <= i -> rest s i = #"V" ++ r -> (rest s (i + 1) = r -> qto k s (i + 1) (Q (is_const q) true (is_atomic q) (is_mutex q)) q' j) -> qto (S k) s i q q' j.
Proof. intros k s i r q q' j I H C n L. destruct n as [|n]; [lia|]. cbn [quals_]. rewrite (miss s i #"K" _ r H), (hit s i #"V" r H) by reflexivity. apply C; [|lia]. apply (rest_app s i #"V" r I H). Qed.
Lemma qto_X : forall k s i r q q' j, 0 <= i -> rest s i = #"X" ++ r -> (rest s (i + 1) = r -> qto k s (i + 1) (Q (is_const q) (is_volatile q) (is_atomic q) true) q' j) -> qto (S k) s i q q' j.
Proof. intros k s i r q q' j I H C n L. destruct n as [|n]; [lia|]. cbn [quals_]. rewrite (miss s i #"K" _ r H), (miss s i #"V" _ r H), (hit s i #"X" r H) by reflexivity. apply C; [|lia]. apply (rest_app s i #"X" r I H). Qed.
Lemma qto_A : forall k s i r q q' j, 0 <= i -> rest s i = #"DA" ++ r -> (rest s (i + 2) = r -> qto k s (i + 2) (Q (is_const q) (is_volatile q) true (is_mutex q)) q' j) -> qto (S k) s i q q' j.
Proof. intros k s i r q q' j I H C n L. destruct n as [|n]; [lia|]. cbn [quals_]. rewrite (miss s i #"K" _ r H), (miss s i #"V" _ r H), (miss s i #"X" _ r H), (hit s i #"DA" r H) by reflexivity. apply C; [|lia]. apply (rest_app s i #"DA" r I H). Qed.
Lemma quals_ok : forall inf q s i x r, 0 <= i -> rest s i = printq full inf q ++ x ++ r -> clean x = true -> quals_ (S (length s)) s i noq = (cut inf q, i + size (printq full inf q)).
Proof.
  intros inf q s i x r I H C. assert (L : size (printq full inf q) <= size s). { pose proof (rest_size s i I) as S. rewrite H, !size_app in S. pose proof (size_pos x). pose proof (size_pos r). pose proof (size_pos (printq full inf q)). pose proof (size_pos s). lia. }
  assert (T : forall k, (k <= S (length s))%nat -> qto k s i noq (cut inf q) (i + size (printq full inf q)) -> quals_ (S (length s)) s i noq = (cut inf q, i + size (printq full inf q))) by (intros k K Qt; apply Qt; auto).
  assert (E : forall j j' q q', rest s j = x ++ r -> q = q' -> j = j' -> qto 0 s j q q' j') by (intros; subst; eapply qto_stop; eauto).
  unfold size in L. destruct inf, q as [[|] [|] [|] [|]]; cbn [printq full tm is_const is_volatile is_atomic is_mutex kq app s_ list_ascii_of_string cut] in *; cbn [length] in L;
    (eapply T; [|repeat first [eapply qto_K; [lia|exact H|clear H; intros H]|eapply qto_V; [lia|exact H|clear H; intros H]|eapply qto_X; [lia|exact H|clear H; intros H]|eapply qto_A; [lia|exact H|clear H; intros H]]; apply E; [exact H|reflexivity|unfold size; cbn [length]; lia]]; lia).
Qed.
(** the table *)
Lemma pick_at : forall l k x p s j r, nth_error l k = Some (x, p) -> forallb (fun y => apart #(fst y) #x) (firstn k l) = true -> rest s j = #x ++ r -> pick l s j = Some (p, j + size #x).
Proof.
  induction l as [|[y py] l IH]; intros [|k] x p s j r N A H; try discriminate N; cbn [nth_error firstn forallb pick fst] in *.
  - injection N as -> ->. rewrite (hit s j _ r H). auto.
  - apply andb_prop in A. rewrite (miss s j _ _ r H) by tauto. apply (IH k x p s j r); tauto.
Qed.
Definition entry (x : string) (p : parser) : Prop := exists k, nth_error parsers k = Some (x, p) /\ forallb (fun y => apart #(fst y) #x) (firstn k parsers) = true /\ clean #x = true.
Lemma pick_ok : forall x p s j r, entry x p -> rest s j = #x ++ r -> pick parsers s j = Some (p, j + size #x).
Proof. intros x p s j r (k & N & A & _) H. eapply pick_at; eauto. Qed.
Lemma entry_basic : forall k, (k < 36)%nat -> entry (nth k basicTypes "") (PBasic k).
Proof.
  intros k K. exists k. assert (T : forallb (fun k => match nth_error parsers k with Some (x, PBasic k') => String.eqb x (nth k basicTypes "") && Nat.eqb k k' && forallb (fun y => apart #(fst y) #x) (firstn k parsers) && clean #x | _ => false end) (seq 0 36) = true) by (vm_compute; reflexivity).
  rewrite forallb_forall in T. specialize (T k). cbv beta in T. rewrite in_seq in T. specialize (T ltac:(lia)). destruct (nth_error parsers k) as [[x []]|]; try discriminate T. repeat rewrite andb_true_iff in T. destruct T as [[[A B] C] D]. apply String.eqb_eq in A. apply Nat.eqb_eq in B. subst. auto.
Qed.
Ltac entry_ k := exists k; repeat split; vm_compute; reflexivity.
Lemma entry_var : forall k, entry (match k with Dtype => "BD" | Ftype => "BF" | Ttype => "BT" end) (PVar (match k with Dtype => "DT" | Ftype => "FT" | Ttype => "TT" end)).
Proof. intros []; [entry_ 36%nat|entry_ 39%nat|entry_ 40%nat]. Qed.
Lemma entry_void : entry "v" PVoid. Proof. entry_ 42%nat. Qed.
Lemma entry_fun : entry "F" PFun. Proof. entry_ 43%nat. Qed.
Lemma entry_ptr : entry "P" PPtr. Proof. entry_ 44%nat. Qed.
Lemma entry_arr : entry "A" PArr. Proof. entry_ 45%nat. Qed.
Lemma entry_tuple : entry "T" PTuple. Proof. entry_ 46%nat. Qed.
Lemma entry_inst : forall k, entry (match k with Struct => "S" | Union => "U" | Enum => "M" | TypeI => "Y" end) (PInst k).
Proof. intros []; [entry_ 47%nat|entry_ 48%nat|entry_ 49%nat|entry_ 50%nat]. Qed.
Lemma entry_zero : entry "Z" PZero. Proof. entry_ 51%nat. Qed.
Lemma entry_one : entry "O" POne. Proof. entry_ 52%nat. Qed.
Definition act (f : nat) (s : str) (q : quals) (p : parser) (j : Z) : out ty :=
  match p with
  | PBasic k => Got (Basic q k) j
  | PVar n => match number s j with Some (v, j) => Got (Inst TypeI q (#n ++ znum v) []) j | None => Null end
  | PVoid => Got (Void q) j
  | PFun => if done s j then Null else bind (parse f s j) (fun r j => match expect s j (ch "_") with None => Null | Some j => bind (params f s j []) (fun ps j => Got (Fun [] [] [r] ps) j) end)
  | PPtr => bind (parse f s j) (fun t j => Got (Ptr q t) j)
  | PArr => match number s j with Some (v, j) => bind (parse f s j) (fun t j => Got (Arr q (Z.to_nat v) t) j) | None => Null end
  | PTuple => match number s j with Some (v, j) => bind (comps f s v j []) (fun ts j => Got (Tuple q ts) j) | None => Null end
  | PInst k => match name s j with Some (n, j) => Got (Inst k q n []) j | None => Null end
  | PZero => Got (Zero q) j
  | POne => Got (One q) j
  end.
Lemma parse_S : forall f s i, parse (S f) s i = if done s i then Null else match forall_ s i with None => Null | Some j => let (q, j) := quals_ (S (length s)) s j noq in match pick parsers s j with None => Abort | Some (p, j) => act f s q p j end end.
Proof. reflexivity. Qed.
Lemma printq_start : forall inf q, printq full inf q = [] \/ exists c l, printq full inf q = c :: l /\ apart #"Q" [c] = true /\ starter c = true.
Proof. intros inf [[|] [|] [|] [|]]; destruct inf; vm_compute; auto; right; do 2 eexists; repeat split; reflexivity. Qed.
Lemma clean_cons : forall x, clean x = true -> exists c l, x = c :: l.
Proof. intros [|c l] H; [discriminate H|eauto]. Qed.
Lemma no_forall : forall inf q s i x r, rest s i = printq full inf q ++ x ++ r -> clean x = true -> forall_ s i = Some i.
Proof.
  intros inf q s i x r H C. unfold forall_. destruct (printq_start inf q) as [E|(c & l & E & A & _)]; rewrite E in H.
  - rewrite (miss s i #"Q" x r); auto. unfold clean in C. cbn [forallb] in C. repeat rewrite andb_true_iff in C. tauto.
  - rewrite (miss s i #"Q" [c] (l ++ x ++ r)); auto.
Qed.
Lemma parse_head : forall f s i inf q x p r, entry x p -> 0 <= i -> rest s i = printq full inf q ++ #x ++ r -> parse (S f) s i = act f s (cut inf q) p (i + size (printq full inf q) + size #x) /\ rest s (i + size (printq full inf q) + size #x) = r.
Proof.
  intros f s i inf q x p r E I H. assert (C : clean #x = true) by (destruct E as (k & _ & _ & C); auto). assert (R : rest s (i + size (printq full inf q)) = #x ++ r) by (apply rest_app; auto). pose proof (size_pos (printq full inf q)). split; [|apply rest_app; auto; lia].
  rewrite parse_S, (no_forall inf q s i #x r), (quals_ok inf q s i #x r), (pick_ok x p s _ r) by auto. destruct (clean_cons _ C) as (c & l & X). destruct (rest s i) as [|c' l'] eqn:D; [|rewrite (done_no s i c' l'); auto]. rewrite X in H. destruct (printq full inf q); discriminate H.
Qed.
(** the names of flat types *)
Definition e (vs : vars) (inf : bool) (t : ty) : str := fst (mangle full false inf vs t).
Definition rn (vs : vars) (n : str) : str := match vfind vs n with Some k => shown k | None => n end.
Lemma pair_eq : forall {A B} (p : A * B) b, snd p = b -> p = (fst p, b).
Proof. intros A B [x y] b H. cbn in *. subst. auto. Qed.
Lemma flat_each : forall vs l inf, Forall (fun t => forall inf, flat t = true -> snd (mangle full false inf vs t) = vs) l -> forallb flat l = true -> mangles full false inf vs l = (concat (map (e vs inf) l), vs).
Proof.
  induction l as [|x l IH]; intros inf H F; auto. inversion H; subst. cbn [forallb] in F. apply andb_prop in F. rewrite mangles_cons, (pair_eq (mangle full false inf vs x) vs), IH by (try apply H2; tauto). cbn [map concat]. auto.
Qed.
Lemma flat_vars : forall vs t inf, flat t = true -> snd (mangle full false inf vs t) = vs.
Proof.
  intros vs. induction t as [q|q k|q b IH|q d b IH|q b IH|fa asr rs ps A R P|k q n ps IH|q ts IH|q|q|q|p c IP IC] using ty_ind2; intros inf F; try discriminate F; auto.
  - cbn [mangle flat] in *. rewrite (pair_eq _ vs (IH false F)). auto.
  - cbn [mangle flat] in *. rewrite (pair_eq _ vs (IH false F)). auto.
  - cbn [mangle flat] in *. apply andb_prop in F. rewrite (pair_eq _ vs (IH false (proj2 F))). auto.
  - cbn [flat] in F. apply andb_prop in F. destruct ps; [|destruct F; discriminate]. rewrite mangle_inst. cbn [mangles]. destruct (match k with TypeI => vfind vs n | _ => None end); auto.
  - cbn [flat] in F. rewrite mangle_tuple, flat_each by auto. auto.
Qed.
Lemma e_each : forall vs l inf, forallb flat l = true -> mangles full false inf vs l = (concat (map (e vs inf) l), vs).
Proof. intros. apply flat_each; auto. apply Forall_forall. intros. apply flat_vars; auto. Qed.
Lemma e_ptr : forall vs inf q b, flat b = true -> e vs inf (Ptr q b) = printq full inf q ++ #"P" ++ e vs false b.
Proof. intros vs inf q b F. unfold e. cbn [mangle]. rewrite (pair_eq _ vs (flat_vars vs b false F)). destruct b; try discriminate F; auto. Qed.
Lemma e_arr : forall vs inf q d b, flat b = true -> e vs inf (Arr q d b) = printq full inf q ++ #"A" ++ num 0 ++ e vs false b.
Proof. intros vs inf q d b F. unfold e. cbn [mangle]. rewrite (pair_eq _ vs (flat_vars vs b false F)). auto. Qed.
Lemma e_ref : forall vs inf q b, flat (Ref q b) = true -> e vs inf (Ref q b) = e vs false b.
Proof. intros vs inf q b F. cbn [flat] in F. apply andb_prop in F. destruct F as [M F]. unfold e. cbn [mangle]. rewrite (pair_eq _ vs (flat_vars vs b false F)). destruct q as [a b' c []]; auto. discriminate M. Qed.
Lemma e_tuple : forall vs inf q ts, flat (Tuple q ts) = true -> e vs inf (Tuple q ts) = printq full inf q ++ #"T" ++ num (length ts) ++ concat (map (e vs false) ts).
Proof. intros vs inf q ts F. unfold e at 1. rewrite mangle_tuple, e_each by auto. auto. Qed.
Lemma e_inst : forall vs inf k q n ps, flat (Inst k q n ps) = true -> e vs inf (Inst k q n ps) = printq full inf q ++ match (match k with TypeI => vfind vs n | _ => None end) with Some kd => typeVariable kd ++ num 0 | None => ichar k ++ lenname n end.
Proof. intros vs inf k q n ps F. unfold e. cbn [flat] in F. apply andb_prop in F. destruct ps; [|destruct F; discriminate]. rewrite mangle_inst. cbn [mangles]. destruct (match k with TypeI => vfind vs n | _ => None end); auto. Qed.
Lemma q_start : forall inf q x y, (exists c l, x = c :: l /\ starter c = true) -> exists c l, printq full inf q ++ x ++ y = c :: l /\ starter c = true.
Proof. intros inf q x y (c & l & -> & S). destruct (printq_start inf q) as [->|(c' & l' & -> & _ & S')]; cbn [app]; eauto. Qed.
Lemma e_start : forall vs t inf, flat t = true -> exists c l, e vs inf t = c :: l /\ starter c = true.
Proof.
  intros vs. induction t as [q|q k|q b IH|q d b IH|q b IH|fa asr rs ps A R P|k q n ps IH|q ts IH|q|q|q|p c IP IC] using ty_ind2; intros inf F; try discriminate F.
  - unfold e. cbn [mangle fst]. rewrite <- (app_nil_r #"v"). apply q_start. vm_compute. eauto.
  - unfold e. cbn [mangle fst]. rewrite <- (app_nil_r (basic k)). apply q_start. cbn [flat] in F. apply Nat.ltb_lt in F. do 36 (destruct k as [|k]; [vm_compute; eauto|]). lia.
  - rewrite e_ptr by auto. apply q_start. vm_compute. eauto.
  - rewrite e_arr by auto. apply q_start. vm_compute. eauto.
  - rewrite e_ref by auto. apply IH. cbn [flat] in F. apply andb_prop in F. tauto.
  - rewrite e_inst by auto. destruct (match k with TypeI => vfind vs n | _ => None end) as [kd|]; apply q_start; [destruct kd|destruct k]; vm_compute; eauto.
  - rewrite e_tuple by auto. apply q_start. vm_compute. eauto.
  - unfold e. cbn [mangle fst]. apply q_start. vm_compute. eauto.
  - vm_compute. eauto.
  - vm_compute. eauto.
Qed.
Lemma starter_nodig : forall c l, starter c = true -> heads nodig (c :: l).
Proof. intros c l S. cbn [heads]. unfold starter in S. unfold nodig. repeat rewrite andb_true_iff in S. tauto. Qed.
Lemma e_heads : forall vs t inf r, flat t = true -> heads nodig (e vs inf t ++ r).
Proof. intros vs t inf r F. destruct (e_start vs t inf F) as (c & l & -> & S). apply starter_nodig. auto. Qed.
Lemma es_heads : forall vs ts inf r, forallb flat ts = true -> heads nodig r -> heads nodig (concat (map (e vs inf) ts) ++ r).
Proof. intros vs [|t ts] inf r F H; auto. cbn [map concat forallb] in *. apply andb_prop in F. rewrite <- app_assoc. apply e_heads. tauto. Qed.
(** parsing *)
Definition parses (vs : vars) (t : ty) : Prop := forall inf s i r, flat t = true -> 0 <= i -> size s < 2 ^ 32 -> rest s i = e vs inf t ++ r -> heads nodig r ->
  exists f0, forall f, (f0 <= f)%nat -> parse f s i = Got (seen (rn vs) inf t) (i + size (e vs inf t)).
Lemma comps_ok : forall vs ts s i r, Forall (parses vs) ts -> forallb flat ts = true -> 0 <= i -> size s < 2 ^ 32 -> rest s i = concat (map (e vs false) ts) ++ r -> heads nodig r ->
  exists f0, forall f acc, (f0 <= f)%nat -> comps f s (Z.of_nat (length ts)) i acc = Got (acc ++ map (seen (rn vs) false) ts) (i + size (concat (map (e vs false) ts))).
Proof.
  induction ts as [|t ts IH]; intros s i r P F I B H N.
  - exists 1%nat. intros [|f] acc L; [lia|]. cbn. rewrite app_nil_r. f_equal. lia.
  - inversion P as [|? ? P1 P2]; subst. cbn [forallb] in F. apply andb_prop in F. destruct F as [F1 F2]. cbn [map concat] in *. rewrite <- app_assoc in H. destruct (P1 false s i _ F1 I B H) as (f1 & Q1); [apply es_heads; auto|]. pose proof (size_pos (e vs false t)).
    destruct (IH s (i + size (e vs false t)) r) as (f2 & Q2); auto; [lia|apply rest_app; auto|]. exists (S (Nat.max f1 f2)). intros [|f] acc L; [lia|]. cbn [comps]. destruct (Z.of_nat (length (t :: ts)) <=? 0) eqn:E; [cbn [length] in E; lia|]. destruct (e_start vs t false F1) as (c & l & Ec & _). rewrite (done_no s i c (l ++ concat (map (e vs false) ts) ++ r)) by (auto; rewrite H, Ec; auto).
    rewrite Q1 by lia. cbn [bind]. replace (Z.of_nat (length (t :: ts)) - 1) with (Z.of_nat (length ts)) by (cbn [length]; lia). rewrite Q2 by lia. rewrite <- app_assoc, size_app. cbn [app]. f_equal. lia.
Qed.
Lemma params_ok : forall vs ts s i r, Forall (parses vs) ts -> forallb flat ts = true -> 0 <= i -> size s < 2 ^ 32 -> rest s i = concat (map (e vs true) ts) ++ ch "_" :: r ->
  exists f0, forall f acc, (f0 <= f)%nat -> params f s i acc = Got (acc ++ map (seen (rn vs) true) ts) (i + size (concat (map (e vs true) ts))).
Proof.
  induction ts as [|t ts IH]; intros s i r P F I B H.
  - exists 1%nat. intros [|f] acc L; [lia|]. cbn [map concat app params] in *. rewrite (done_no s i _ _ I H), (expect_hit s i _ _ H), app_nil_r. f_equal. unfold size. cbn. lia.
  - inversion P as [|? ? P1 P2]; subst. cbn [forallb] in F. apply andb_prop in F. destruct F as [F1 F2]. cbn [map concat] in *. rewrite <- app_assoc in H. destruct (P1 true s i _ F1 I B H) as (f1 & Q1); [apply es_heads; auto; reflexivity|]. pose proof (size_pos (e vs true t)).
    destruct (IH s (i + size (e vs true t)) r) as (f2 & Q2); auto; [lia|apply rest_app; auto|]. exists (S (Nat.max f1 f2)). intros [|f] acc L; [lia|]. cbn [params]. destruct (e_start vs t true F1) as (c & l & Ec & S). assert (H' : rest s i = c :: (l ++ concat (map (e vs true) ts) ++ ch "_" :: r)) by (rewrite H, Ec; auto). rewrite (done_no s i _ _ I H').
    unfold expect. rewrite H'. assert (X : Ascii.eqb (ch "_") c = false) by (unfold starter in S; repeat rewrite andb_true_iff in S; rewrite Ascii.eqb_sym; destruct (Ascii.eqb c (ch "_")); auto; destruct S as [[_ S] _]; discriminate S). rewrite X. rewrite Q1 by lia. cbn [bind]. rewrite Q2 by lia. rewrite <- app_assoc, size_app. cbn [app]. f_equal. lia.
Qed.
Lemma num_size : forall n, 0 < size (num n).
Proof. intros n. destruct (num_cons n) as (c & d & ->). unfold size. cbn [length]. lia. Qed.
Lemma all_parse : forall vs t, parses vs t.
Proof.
  intros vs. induction t as [q|q k|q b IH|q d b IH|q b IH|fa asr rs ps A R P|k q n ps IH|q ts IH|q|q|q|p c IP IC] using ty_ind2; intros inf s i r F I B H N; try discriminate F; pose proof (size_pos (printq full inf q)) as SQ.
  - exists 1%nat. intros [|f] L; [lia|]. unfold e in *. cbn [mangle fst] in *. rewrite <- app_assoc in H. destruct (parse_head f s i inf q "v" PVoid r entry_void I H) as [E _]. rewrite E. cbn [act seen]. rewrite size_app. f_equal. lia.
  - exists 1%nat. intros [|f] L; [lia|]. unfold e in *. cbn [mangle fst flat] in *. apply Nat.ltb_lt in F. unfold basic in *. rewrite <- app_assoc in H. destruct (parse_head f s i inf q _ _ r (entry_basic k F) I H) as [E _]. rewrite E. cbn [act seen]. rewrite size_app. f_equal. lia.
  - rewrite e_ptr in * by auto. rewrite <- !app_assoc in H. pose proof (fun f => parse_head f s i inf q "P" PPtr _ entry_ptr I H) as E. destruct (IH false s (i + size (printq full inf q) + size #"P") r) as (f0 & Q0); auto; [unfold size at 2; lia|apply (E O)|]. exists (S f0). intros [|f] L; [lia|]. rewrite (proj1 (E f)). cbn [act seen]. rewrite Q0 by lia. cbn [bind]. rewrite !size_app. f_equal. lia.
  - rewrite e_arr in * by auto. rewrite <- !app_assoc in H. pose proof (fun f => parse_head f s i inf q "A" PArr _ entry_arr I H) as E. assert (SA : size #"A" = 1) by reflexivity. assert (S0 : size (num 0) = 1) by reflexivity. pose proof (number_ok s (i + size (printq full inf q) + size #"A") 0 (e vs false b ++ r) (proj2 (E O)) (e_heads vs b false r F) ltac:(unfold two64; lia)) as NO. destruct (IH false s (i + size (printq full inf q) + size #"A" + size (num 0)) r) as (f0 & Q0); auto; [lia|apply rest_app; [lia|apply (E O)]|]. exists (S f0). intros [|f] L; [lia|]. rewrite (proj1 (E f)). cbn [act seen]. rewrite NO, Q0 by lia. cbn [bind]. rewrite !size_app. f_equal. lia.
  - rewrite e_ref in * by auto. cbn [flat] in F. apply andb_prop in F. cbn [seen]. apply (IH false s i r); tauto.
  - rewrite e_inst in * by auto. rewrite <- !app_assoc in H. pose proof F as F'. cbn [flat] in F'. apply andb_prop in F'. destruct F' as [NO Z0]. destruct ps; [|discriminate Z0]. exists 1%nat. intros [|f] L; [lia|]. cbn [seen map].
    destruct (match k with TypeI => vfind vs n | _ => None end) as [kd|] eqn:V.
    + destruct k; try discriminate V. unfold rn. rewrite V. rewrite <- app_assoc in H. assert (T : typeVariable kd = #(match kd with Dtype => "BD" | Ftype => "BF" | Ttype => "BT" end)) by (destruct kd; auto). rewrite T in *. destruct (parse_head f s i inf q _ _ _ (entry_var kd) I H) as [E R]. rewrite E. cbn [act]. rewrite (number_ok s _ 0 r R N) by (unfold two64; lia). rewrite !size_app. destruct kd; (f_equal; first [lia|reflexivity]).
    + rewrite <- app_assoc in H. assert (T : ichar k = #(match k with Struct => "S" | Union => "U" | Enum => "M" | TypeI => "Y" end)) by (destruct k; auto). rewrite T in *. destruct (parse_head f s i inf q _ _ _ (entry_inst k) I H) as [E R]. rewrite E. cbn [act]. pose proof (size_pos #(match k with Struct => "S" | Union => "U" | Enum => "M" | TypeI => "Y" end)). rewrite (name_ok_ s _ n r) by (auto; lia). rewrite !size_app. assert (X : match k with TypeI => rn vs n | _ => n end = n) by (destruct k; auto; unfold rn; rewrite V; auto). rewrite X. f_equal. lia.
  - rewrite e_tuple in * by auto. cbn [flat] in F. rewrite <- !app_assoc in H. pose proof (fun f => parse_head f s i inf q "T" PTuple _ entry_tuple I H) as E. assert (ST : size #"T" = 1) by reflexivity. pose proof (num_size (length ts)) as SN.
    assert (LB : Z.of_nat (length ts) < two64).
    { pose proof (rest_size s i I) as S. rewrite H, !size_app in S. assert (LL : forall l, forallb flat l = true -> Z.of_nat (length l) <= size (concat (map (e vs false) l))). { induction l as [|t l IL]; intros FL; [unfold size; cbn; lia|]. cbn [forallb map concat length] in *. apply andb_prop in FL. rewrite size_app. destruct (e_start vs t false (proj1 FL)) as (c & x & -> & _). specialize (IL (proj2 FL)). unfold size at 1. cbn [length]. lia. }
      specialize (LL ts F). pose proof (size_pos r). change (2 ^ 32) with 4294967296 in B. unfold two64. lia. }
    pose proof (number_ok s (i + size (printq full inf q) + size #"T") (length ts) (concat (map (e vs false) ts) ++ r) (proj2 (E O)) (es_heads vs ts false r F N) LB) as NO.
    destruct (comps_ok vs ts s (i + size (printq full inf q) + size #"T" + size (num (length ts))) r) as (f0 & Q0); auto; [lia|apply rest_app; [lia|apply (E O)]|]. exists (S f0). intros [|f] L; [lia|]. rewrite (proj1 (E f)). cbn [act seen]. rewrite NO, Q0 by lia. cbn [bind app]. rewrite !size_app. f_equal. lia.
  - exists 1%nat. intros [|f] L; [lia|]. unfold e in *. cbn [mangle fst] in *. rewrite <- !app_assoc in H. destruct (parse_head f s i inf q "Y" _ _ (entry_inst TypeI) I H) as [E R]. rewrite E. cbn [act seen]. assert (SY : size #"Y" = 1) by reflexivity. rewrite (name_ok_ s _ #"__builtin_va_list" r) by (auto; lia). rewrite !size_app. f_equal. lia.
  - exists 1%nat. intros [|f] L; [lia|]. destruct (parse_head f s i true noq "Z" PZero r entry_zero I H) as [E _]. rewrite E. cbn [act seen]. f_equal. cbn [e]. unfold e, size. cbn. lia.
  - exists 1%nat. intros [|f] L; [lia|]. destruct (parse_head f s i true noq "O" POne r entry_one I H) as [E _]. rewrite E. cbn [act seen]. f_equal. unfold e, size. cbn. lia.
Qed.
(** functions *)
Definition ret0 (rs : list ty) : ty := match rs with [] => Void noq | t :: _ => t end.
Lemma fun_ok : forall vs rs ps s j r, forallb flat rs = true -> forallb flat ps = true -> (length rs <= 1)%nat -> 0 <= j -> size s < 2 ^ 32 -> rest s j = e vs true (ret0 rs) ++ #"_" ++ concat (map (e vs true) ps) ++ #"_" ++ r ->
  exists f0 k, forall f, (f0 <= f)%nat -> act f s noq PFun j = Got (seen (rn vs) false (Fun [] [] rs ps)) k.
Proof.
  intros vs rs ps s j r R P L J B H. assert (F0 : flat (ret0 rs) = true) by (destruct rs as [|t rs]; auto; cbn [forallb] in R; apply andb_prop in R; tauto). pose proof (size_pos (e vs true (ret0 rs))). destruct (all_parse vs (ret0 rs) true s j _ F0 J B H (us_heads _)) as (f1 & Q1). assert (H2 : rest s (j + size (e vs true (ret0 rs))) = #"_" ++ concat (map (e vs true) ps) ++ #"_" ++ r) by (apply rest_app; auto).
  assert (H3 : rest s (j + size (e vs true (ret0 rs)) + 1) = concat (map (e vs true) ps) ++ #"_" ++ r) by (apply (rest_app s _ #"_"); auto; lia).
  destruct (params_ok vs ps s (j + size (e vs true (ret0 rs)) + 1) r) as (f2 & Q2); auto; [apply Forall_forall; intros; apply all_parse|lia|].
  exists (Nat.max f1 f2). eexists. intros f LF. cbn [act]. destruct (e_start vs (ret0 rs) true F0) as (c & l & Ec & _). assert (H' : rest s j = c :: (l ++ #"_" ++ concat (map (e vs true) ps) ++ #"_" ++ r)) by (rewrite H, Ec; auto). rewrite (done_no s j _ _ J H'). rewrite Q1 by lia. cbn [bind]. rewrite (expect_hit s _ (ch "_") _ H2), Q2 by lia. cbn [bind app seen]. do 2 f_equal. destruct rs as [|t [|]]; auto. cbn [length] in L. lia.
Qed.
Lemma forall_ok : forall d f v s i r, 0 <= i -> Z.of_nat d < two64 -> Z.of_nat f < two64 -> Z.of_nat v < two64 -> rest s i = #"Q" ++ num d ++ #"_" ++ num f ++ #"_" ++ num v ++ #"_" ++ num 0 ++ #"_" ++ #"_" ++ r ->
  exists j, i <= j /\ forall_ s i = Some j /\ rest s j = r.
Proof.
  intros d f v s i r I D F V H. unfold forall_. rewrite (hit s i _ _ H). pose proof (rest_app s i #"Q" _ I H) as H1. change (size #"Q") with 1 in *. assert (I1 : i <= i + 1) by lia. revert H1 I1. generalize (i + 1) as j. intros j H1 I1.
  assert (ST : forall (n : nat) (w : str) j, i <= j -> Z.of_nat n < two64 -> rest s j = num n ++ #"_" ++ w -> exists k, number s j = Some (Z.of_nat n, j + size (num n)) /\ expect s (j + size (num n)) (ch "_") = Some k /\ rest s k = w /\ i <= k).
  { intros n w j0 J0 N0 E0. pose proof (num_size n). pose proof (rest_app s j0 (num n) _ ltac:(lia) E0) as E1. exists (j0 + size (num n) + 1). repeat split; [apply (number_ok s j0 n _ E0); auto; apply us_heads|apply (expect_hit s _ _ _ E1)|apply (rest_app s _ #"_" w); auto; lia|lia]. }
  assert (Z0 : Z.of_nat 0 < two64) by (unfold two64; lia).
  destruct (ST _ _ _ I1 D H1) as (j2 & A1 & B1 & H2 & I2). rewrite A1, B1. destruct (ST _ _ _ I2 F H2) as (j3 & A2 & B2 & H3 & I3). rewrite A2, B2. destruct (ST _ _ _ I3 V H3) as (j4 & A3 & B3 & H4 & I4). rewrite A3, B3. destruct (ST _ _ _ I4 Z0 H4) as (j5 & A4 & B4 & H5 & I5). rewrite A4, B4.
  exists (j5 + 1). split; [lia|]. split; [apply (expect_hit s _ _ _ H5)|apply (rest_app s _ #"_" r); auto; lia].
Qed.
Lemma kcount_le : forall k fa, (kcount k fa <= length fa)%nat.
Proof. intros. unfold kcount. induction fa as [|x fa IH]; cbn [filter length]; auto. destruct (match snd x, k with Dtype, Dtype | Ftype, Ftype | Ttype, Ttype => true | _, _ => false end); cbn [length]; lia. Qed.
Lemma simple_fun : forall fa rs ps, forallb flat rs = true -> forallb flat ps = true -> (length rs <= 1)%nat -> fst (mangle full false false [] (Fun fa [] rs ps)) =
  (if none fa then [] else #"Q" ++ num (kcount Dtype fa) ++ #"_" ++ num (kcount Ftype fa) ++ #"_" ++ num (kcount Ttype fa) ++ #"_" ++ num 0 ++ #"_" ++ #"_") ++ #"F" ++ e (rev fa) true (ret0 rs) ++ #"_" ++ concat (map (e (rev fa) true) ps) ++ #"_".
Proof.
  intros fa rs ps R P L. rewrite mangle_fun. assert (V : decl0 full [] fa [] = rev fa) by (unfold decl0, polym, declare; destruct fa; auto; cbn [full tm negb none andb]; apply app_nil_r). rewrite V. cbv zeta. rewrite !e_each by auto. cbn [fst]. unfold polym. rewrite andb_true_r. cbn [full tm negb andb].
  destruct fa as [|a fa]; cbn [none negb length map concat]; (destruct rs as [|t [|]]; [reflexivity| |cbn [length] in L; lia]); cbn [none map concat ret0]; rewrite app_nil_r; auto.
Qed.
Lemma simple_parse : forall t s i r, simple t = true -> Z.of_nat (length (binders t)) < two64 -> 0 <= i -> size s < 2 ^ 32 -> rest s i = fst (mangle full false false [] t) ++ r -> heads nodig r ->
  exists f0 k, forall f, (f0 <= f)%nat -> parse f s i = Got (seen (show_vars (binders t)) false t) k.
Proof.
  intros t s i r S L I B H N. destruct (flat t) eqn:F.
  - destruct (all_parse [] t false s i r F I B H N) as (f0 & Q0). exists f0, (i + size (e [] false t)). intros f LF. rewrite Q0 by auto. f_equal. assert (E : binders t = []) by (destruct t; auto; discriminate F). rewrite E. reflexivity.
  - destruct t as [| | | | |fa asr rs ps| | | | | |]; cbn [simple] in S; try (rewrite F in S; discriminate S). repeat rewrite andb_true_iff in S. destruct S as [[[A LR] R] P]. destruct asr; [|discriminate A]. apply Nat.leb_le in LR. cbn [binders] in *. rewrite simple_fun in H by auto.
    assert (J : exists j, 0 <= j /\ forall_ s i = Some j /\ rest s j = #"F" ++ e (rev fa) true (ret0 rs) ++ #"_" ++ concat (map (e (rev fa) true) ps) ++ #"_" ++ r).
    { destruct fa as [|a fa]; cbn [none] in H.
      - exists i. repeat split; auto. 2: rewrite H; cbn [app]; rewrite <- !app_assoc; auto. apply (no_forall true noq s i #"F" (e [] true (ret0 rs) ++ #"_" ++ concat (map (e [] true) ps) ++ #"_" ++ r)); auto. rewrite H. cbn [app]. rewrite <- !app_assoc. auto.
      - rewrite <- !app_assoc in H. pose proof (kcount_le Dtype (a :: fa)). pose proof (kcount_le Ftype (a :: fa)). pose proof (kcount_le Ttype (a :: fa)). apply forall_ok in H; try lia. destruct H as (j & IJ & FA & H). exists j. repeat split; auto. lia. }
    destruct J as (j & J0 & FA & HJ). pose proof (quals_ok true noq s j #"F" _ J0 HJ eq_refl) as QK. cbn [printq full tm kq is_mutex noq app size length Z.of_nat cut] in QK. rewrite Z.add_0_r in QK.
    destruct (fun_ok (rev fa) rs ps s (j + size #"F") r) as (f0 & k & Q0); auto; [unfold size; lia|apply rest_app; auto|]. exists (S f0), k. intros [|f] LF; [lia|]. rewrite parse_S, FA.
    destruct (rest s i) as [|c w] eqn:RI.
    { exfalso. destruct (none fa); discriminate H. }
    rewrite (done_no s i c w I RI). change (Q false false false false) with noq in QK. rewrite QK. rewrite (pick_ok "F" PFun s j _ entry_fun HJ). rewrite Q0 by lia. auto.
Qed.
(** the scope number and the name *)
Lemma alldig_app : forall a b, alldig (a ++ b) = alldig a && alldig b.
Proof. induction a as [|c a IH]; intros b; cbn [alldig app]; auto. rewrite IH. apply andb_assoc. Qed.
Lemma back_app : forall a c, back (a ++ [c]) = c.
Proof. intros. apply last_last. Qed.
Lemma chop_ok : forall d n a i, alldig d = true -> (length d < n)%nat -> isdig (back a) = false -> i < size a -> chop n (a ++ d) i = Some a.
Proof.
  induction d as [|c d IH] using rev_ind; intros n a i D L B S.
  - rewrite app_nil_r. destruct n as [|n]; [cbn in L; lia|]. cbn [chop]. rewrite B. auto.
  - destruct n as [|n]; [lia|]. rewrite app_assoc. rewrite alldig_app in D. apply andb_prop in D. destruct D as [D1 D2]. cbn [alldig] in D2. rewrite andb_true_r in D2. rewrite app_length in L. cbn [length chop] in *. rewrite back_app. change (isdig c) with (isdigit c). rewrite D2, removelast_last. cbv zeta. rewrite size_app. pose proof (size_pos d). destruct (size a + size d <=? i) eqn:E; [lia|]. apply IH; auto; lia.
Qed.
Lemma num_last : forall n, exists d c, num n = d ++ [c] /\ isdig c = true.
Proof.
  intros n. destruct (num_cons n) as (c & d & E). pose proof (digits_dig (Nat.to_uint n)) as D. change (digits (Nat.to_uint n)) with (num n) in D. rewrite E in *. destruct (exists_last (l := c :: d)) as (d' & c' & X); [discriminate|]. exists d', c'. split; auto. rewrite X, alldig_app in D. cbn [alldig] in D. apply andb_prop in D. rewrite andb_true_r in D. tauto.
Qed.
Lemma strip_ok : forall n w lv, name_ok n = true -> heads nodig w -> w <> [] -> size (#"_X" ++ lenname n ++ w ++ #"_" ++ num lv) < 2 ^ 32 ->
  strip (#"_X" ++ lenname n ++ w ++ #"_" ++ num lv) = Some (n, #"_X" ++ lenname n ++ w, 2 + size (lenname n)).
Proof.
  intros n w lv O N W B. set (s := #"_X" ++ lenname n ++ w ++ #"_" ++ num lv) in *. assert (SN : 0 < size (lenname n)) by (unfold lenname; rewrite size_app; pose proof (num_size (length n)); pose proof (size_pos n); lia). assert (SW : 0 < size w) by (destruct w; [tauto|unfold size; cbn [length]; lia]). pose proof (num_size lv) as SV.
  assert (SZ : size s = 2 + (size (lenname n) + (size w + (1 + size (num lv))))) by (unfold s; rewrite !size_app; reflexivity). unfold strip. destruct (size s <? 4) eqn:E; [lia|]. rewrite (hit s 0 #"_X" (lenname n ++ w ++ #"_" ++ num lv)) by reflexivity. change (0 + size #"_X") with 2.
  destruct (num_last lv) as (d & c & ND & DC). assert (BK : back s = c) by (unfold s; rewrite ND, !app_assoc; apply back_app). rewrite BK, DC. cbn [negb].
  rewrite (name_ok_ s 2 n (w ++ #"_" ++ num lv)); [|lia|apply (rest_app s 0 #"_X"); [lia|reflexivity]|exact O|destruct w; [tauto|exact N]|exact B].
  assert (SA : s = (#"_X" ++ lenname n ++ w ++ #"_") ++ num lv) by (unfold s; rewrite <- !app_assoc; auto).
  replace (chop (length s) s (2 + size (lenname n))) with (Some (#"_X" ++ lenname n ++ w ++ #"_")).
  2: { symmetry. rewrite SA at 2. apply chop_ok; [apply digits_dig|unfold size in *; lia|rewrite !app_assoc; reflexivity || (change #"_" with [ch "_"]; rewrite back_app; reflexivity)|rewrite !size_app; change (size #"_X") with 2; change (size #"_") with 1; lia]. }
  change #"_" with [ch "_"]. rewrite !app_assoc, back_app, removelast_last, Ascii.eqb_refl. cbv zeta. rewrite !size_app. change (size #"_X") with 2. destruct (2 + size (lenname n) <? 2 + size (lenname n) + size w) eqn:E2; [|lia]. rewrite <- !app_assoc. auto.
Qed.
Lemma rassoc_in : forall l n a, rassoc l n = Some a -> exists b, In b (map snd l) /\ n = #b.
Proof.
  induction l as [|[x y] l IH]; intros n a H; [discriminate H|]. cbn [rassoc map snd In] in *. destruct (eqs #y n) eqn:E; [|destruct (IH n a H) as (b & ? & ?); eauto]. apply eqs_iff in E. eauto.
Qed.
Lemma source_ok : forall n, source_name n -> in_name (out_name n) = n /\ name_ok (out_name n) = true.
Proof.
  intros n [(a & A & ->)|(O & Q0 & H)].
  - assert (T : forallb (fun a => eqs (in_name (out_name #a)) #a && name_ok (out_name #a)) (map fst ops) = true) by (vm_compute; reflexivity). rewrite forallb_forall in T. specialize (T a A). cbv beta in T. apply andb_prop in T. rewrite eqs_iff in T. auto.
  - unfold out_name. rewrite Q0. split; auto. unfold in_name. destruct n as [|c n]; auto. destruct (Ascii.eqb c (ch "_")); auto. destruct (rassoc ops (c :: n)) as [a|] eqn:E; auto. apply rassoc_in in E. destruct E as (b & B & E). destruct (H b B E).
Qed.
Definition link (over : bool) (d : decl) : str := if over then match dlink d with Plain => [] | AutoGen => #"autogen__" | Intrinsic => #"intrinsic__" end else [].
Lemma simple_heads : forall t r, simple t = true -> heads nodig (fst (mangle full false false [] t) ++ r) /\ fst (mangle full false false [] t) <> [].
Proof.
  intros t r S. destruct (flat t) eqn:F; [split; [apply (e_heads [] t false r F)|destruct (e_start [] t false F) as (c & l & E & _); unfold e in E; rewrite E; discriminate]|].
  destruct t as [| | | | |fa asr rs ps| | | | | |]; cbn [simple] in S; try (rewrite F in S; discriminate S). repeat rewrite andb_true_iff in S. destruct S as [[[A LR] R] P]. destruct asr; [|discriminate A]. apply Nat.leb_le in LR. rewrite simple_fun by auto. destruct (none fa); split; try reflexivity; discriminate.
Qed.
Lemma mangle_link : forall over d, mangle_decl full over d = #"_X" ++ lenname (out_name (dname d)) ++ fst (mangle full false false [] (dty d)) ++ link over d.
Proof. reflexivity. Qed.
Lemma roundtrip : forall over d lv, source_name (dname d) -> simple (dty d) = true -> Z.of_nat (length (binders (dty d))) < two64 -> size (scoped over d lv) < 2 ^ 32 ->
  exists f0, forall f, (f0 <= f)%nat -> demangle f (scoped over d lv) = Named (dname d) (seen (show_vars (binders (dty d))) false (dty d)).
Proof.
  intros over d lv SN S L B. destruct (source_ok _ SN) as [IN NO]. unfold scoped in *. change (Md false true) with full in *. rewrite mangle_link in *. repeat rewrite <- app_assoc in B. repeat rewrite <- app_assoc. set (x := fst (mangle full false false [] (dty d))) in *. set (n := out_name (dname d)) in *.
  destruct (simple_heads (dty d) (link over d) S) as [H NE]. fold x in H, NE. assert (ST : strip (#"_X" ++ lenname n ++ (x ++ link over d) ++ #"_" ++ num lv) = Some (n, #"_X" ++ lenname n ++ (x ++ link over d), 2 + size (lenname n))) by (apply strip_ok; auto; [destruct x; [tauto|discriminate]|rewrite <- !app_assoc; auto]). rewrite <- app_assoc in ST.
  destruct (simple_parse (dty d) (#"_X" ++ lenname n ++ x ++ link over d) (2 + size (lenname n)) (link over d)) as (f0 & k & Q0); auto.
  - pose proof (size_pos (lenname n)). lia.
  - assert (B2 : size (#"_X" ++ lenname n ++ x ++ link over d ++ #"_" ++ num lv) < 2 ^ 32) by exact B. repeat rewrite size_app in B2. repeat rewrite size_app. pose proof (size_pos #"_"). pose proof (size_pos (num lv)). change (2 ^ 32) with 4294967296 in *. lia.
  - rewrite app_assoc. replace (2 + size (lenname n)) with (0 + size (#"_X" ++ lenname n)) by (rewrite size_app; reflexivity). apply rest_app; [lia|reflexivity].
  - unfold link. destruct over; [destruct (dlink d)|]; reflexivity.
  - exists f0. intros f LF. unfold demangle. rewrite ST. rewrite Q0 by auto. rewrite IN. auto.
Qed.
(** what is kept *)
Lemma cv_cut : forall inf q x, cv full inf (cut inf q) x = cv full inf q x.
Proof. intros [|] [a b c d] x; reflexivity. Qed.
Lemma seen_isfun : forall r t inf, flat t = true -> noref t = true -> isfun (seen r inf t) = false /\ isfun (rename r t) = false.
Proof. intros r [] inf F N; try discriminate F; try discriminate N; auto. Qed.
Lemma map_eq : forall {A B} (f g : A -> B) (p q : A -> bool) l, Forall (fun x => p x = true -> q x = true -> f x = g x) l -> forallb p l = true -> forallb q l = true -> map f l = map g l.
Proof. intros A B f g p q. induction 1 as [|x l H _ IH]; cbn [forallb map]; intros P Q0; auto. apply andb_prop in P, Q0. rewrite H, IH; tauto. Qed.
Lemma seen_norm : forall r t inf, flat t = true -> noref t = true -> norm full inf (seen r inf t) = norm full inf (rename r t).
Proof.
  intros r. induction t as [q|q k|q b IH|q d b IH|q b IH|fa asr rs ps A R P|k q n ps IH|q ts IH|q|q|q|p c IP IC] using ty_ind2; intros inf F N; try discriminate F; try discriminate N; cbn [seen rename norm flat noref] in *; try rewrite cv_cut; auto.
  - destruct (seen_isfun r b false F N) as [-> ->]. rewrite IH; auto.
  - rewrite IH; auto.
  - apply andb_prop in F. destruct ps; [auto|destruct F; discriminate].
  - do 2 f_equal. rewrite !map_map. apply (map_eq _ _ flat noref); auto. revert IH. apply Forall_impl. auto.
Qed.
Lemma simple_norm : forall r t, simple t = true -> noref t = true -> norm full false (seen r false t) = norm full false (rename r t).
Proof.
  intros r t S N. destruct (flat t) eqn:F; [apply seen_norm; auto|]. destruct t as [| | | | |fa asr rs ps| | | | | |]; cbn [simple] in S; try (rewrite F in S; discriminate S). repeat rewrite andb_true_iff in S. destruct S as [[[A LR] R] P]. cbn [noref] in N. apply andb_prop in N. destruct N as [N1 N2].
  assert (E : forall l, forallb flat l = true -> forallb noref l = true -> map (norm full true) (map (seen r true) l) = map (norm full true) (map (rename r) l)) by (intros l F1 F2; rewrite !map_map; apply (map_eq _ _ flat noref); auto; apply Forall_forall; intros; apply seen_norm; auto).
  cbn [seen rename norm]. rewrite (E ps P N2). f_equal. specialize (E rs R N1). destruct rs as [|x rs]; auto.
Qed.
(** termination *)
Definition short (s : str) : Prop := size s < 2 ^ 32 /\ forall i v j, number s i = Some (v, j) -> v < 2 ^ 63.
Lemma span_size : forall s, size (span s) <= size s.
Proof. unfold size. induction s as [|c s IH]; cbn [span length]; try lia. destruct (isdig c); cbn [length]; lia. Qed.
Lemma number_pos : forall s i v j, 0 <= i -> number s i = Some (v, j) -> i < j /\ j <= size s /\ v < two64 /\ 0 <= v.
Proof.
  intros s i v j I H. unfold number in H. destruct (span (rest s i)) as [|c d] eqn:E; [discriminate H|]. destruct (value (c :: d) 0 <? two64) eqn:L; [|discriminate H]. injection H as <- <-. pose proof (span_size (rest s i)) as S. rewrite E, rest_size in S by auto. assert (0 < size (c :: d)) by (unfold size; cbn [length]; lia). split; [lia|]. split; [lia|]. split; [apply Z.ltb_lt; exact L|].
  assert (D : forall d v, alldig d = true -> 0 <= v -> 0 <= value d v). { induction d0 as [|x d0 IH]; intros v D V; cbn [value alldig] in *; auto. apply andb_prop in D. destruct D as [D1 D2]. apply IH; auto. unfold isdigit in D1. apply andb_prop in D1. destruct D1 as [D1 _]. apply Nat.leb_le in D1. lia. }
  apply (D (c :: d) 0); [|lia]. rewrite <- E. generalize (rest s i) as u. induction u as [|x u IU]; cbn [span]; auto. destruct (isdig x) eqn:X; auto. cbn [alldig]. change (isdigit x) with (isdig x). rewrite X, IU. auto.
Qed.
Lemma name_pos : forall s i n j, short s -> 0 <= i -> name s i = Some (n, j) -> i < j.
Proof.
  intros s i n j [B S] I H. unfold name in H. destruct (number s i) as [[v k]|] eqn:E; [|discriminate H]. destruct (number_pos _ _ _ _ I E) as (A1 & A2 & A3 & A4). specialize (S _ _ _ E). cbv zeta in H. destruct (size s <? (k + v) mod two64); [discriminate H|]. injection H as _ <-. rewrite Z.mod_small; [lia|]. unfold two64. change (2 ^ 32) with 4294967296 in B. change (2 ^ 63) with 9223372036854775808 in S. change (2 ^ 64) with 18446744073709551616. lia.
Qed.
Lemma is_prefix_pos : forall s i p j, is_prefix s i p = Some j -> j = i + size p.
Proof. intros s i p j H. unfold is_prefix in H. destruct (prefixb p (rest s i)); congruence. Qed.
Lemma expect_pos : forall s i c j, expect s i c = Some j -> j = i + 1.
Proof. intros s i c j H. unfold expect in H. destruct (rest s i); [discriminate H|]. destruct (Ascii.eqb c a); congruence. Qed.
Lemma quals_pos : forall n s i q q' j, quals_ n s i q = (q', j) -> i <= j.
Proof.
  induction n as [|n IH]; intros s i q q' j H; cbn [quals_] in H; [injection H as _ <-; lia|].
  repeat match type of H with context [is_prefix ?s ?i ?p] => destruct (is_prefix s i p) as [?j|] eqn:? end; try (injection H as _ <-; lia); apply IH in H;
  match goal with E : is_prefix _ _ _ = Some _ |- _ => apply is_prefix_pos in E; match type of E with _ = _ + ?x => pose proof (size_pos #"K"); assert (0 <= x) by apply size_pos end end; lia.
Qed.
Lemma forall_pos : forall s i j, 0 <= i -> forall_ s i = Some j -> i <= j.
Proof.
  intros s i j I H. unfold forall_ in H. destruct (is_prefix s i #"Q") as [j0|] eqn:E; [|injection H as <-; lia]. apply is_prefix_pos in E. change (size #"Q") with 1 in E. assert (J0 : i <= j0) by lia. clear E.
  repeat match type of H with
  | context [number s ?k] => let E := fresh in destruct (number s k) as [[? ?]|] eqn:E; [apply number_pos in E; [|lia]|discriminate H]
  | context [if ?b then _ else _] => destruct b; [discriminate H|]
  | context [expect s ?k ?c] => let E := fresh in destruct (expect s k c) as [?|] eqn:E; [apply expect_pos in E|discriminate H]
  end. injection H as <-. lia.
Qed.
Lemma pick_pos : forall s i p j, pick parsers s i = Some (p, j) -> i < j.
Proof.
  assert (T : forallb (fun y => 0 <? size #(fst y)) parsers = true) by (vm_compute; reflexivity). revert T. generalize parsers as l. induction l as [|[x px] l IH]; intros T s i p j H; [discriminate H|]. cbn [forallb pick fst] in *. apply andb_prop in T. destruct (is_prefix s i #x) as [k|] eqn:E; [|eapply IH; eauto; tauto]. apply is_prefix_pos in E. injection H as _ <-. lia.
Qed.
Definition good {A} (i : Z) (r : out A) : Prop := match r with Fuel => False | Got _ j => i < j | _ => True end.
Definition good' {A} (i : Z) (r : out A) : Prop := match r with Fuel => False | Got _ j => i <= j | _ => True end.
Definition left (s : str) (i : Z) : nat := Z.to_nat (size s - i).
Lemma terminates : forall s, short s -> forall f i, 0 <= i ->
  ((2 * left s i + 1 <= f)%nat -> good i (parse f s i)) /\ ((2 * left s i + 2 <= f)%nat -> (forall acc, good' i (params f s i acc)) /\ (forall n acc, good' i (comps f s n i acc))).
Proof.
  intros s SH. induction f as [|f IH]; intros i I; [split; intros; lia|]. split; [|intros L; split].
  - intros L. rewrite parse_S. destruct (done s i) eqn:D; [exact Logic.I|]. unfold done in D. assert (LT : i < size s) by lia. destruct (forall_ s i) as [j|] eqn:F; [|exact Logic.I]. apply forall_pos in F; auto. destruct (quals_ (S (length s)) s j noq) as [q k] eqn:QQ. apply quals_pos in QQ. destruct (pick parsers s k) as [[p m]|] eqn:P; [|exact Logic.I]. apply pick_pos in P. assert (M : i < m) by lia.
    assert (PM : forall m, i < m -> good m (parse f s m)) by (intros m' M'; apply IH; unfold left in *; lia). assert (QM : forall m acc, i < m -> good' m (params f s m acc)) by (intros m' acc M'; apply IH; unfold left in *; lia). assert (CM : forall m n acc, i < m -> good' m (comps f s n m acc)) by (intros m' n acc M'; apply IH; unfold left in *; lia).
    destruct p; cbn [act]; try (cbn [good]; lia).
    + destruct (number s m) as [[v u]|] eqn:N; [|exact Logic.I]. apply number_pos in N; [|lia]. cbn [good]. lia.
    + destruct (done s m); [exact Logic.I|]. pose proof (PM m M) as G. destruct (parse f s m) as [| | |t u]; cbn [bind good] in *; auto. destruct (expect s u (ch "_")) as [w|] eqn:E; [|exact Logic.I]. apply expect_pos in E. pose proof (QM w [] ltac:(lia)) as G2. destruct (params f s w []); cbn [bind good good'] in *; auto. lia.
    + pose proof (PM m M) as G. destruct (parse f s m) as [| | |t u]; cbn [bind good] in *; auto. lia.
    + destruct (number s m) as [[v u]|] eqn:N; [|exact Logic.I]. apply number_pos in N; [|lia]. pose proof (PM u ltac:(lia)) as G. destruct (parse f s u); cbn [bind good] in *; auto. lia.
    + destruct (number s m) as [[v u]|] eqn:N; [|exact Logic.I]. apply number_pos in N; [|lia]. pose proof (CM u v [] ltac:(lia)) as G. destruct (comps f s v u []); cbn [bind good good'] in *; auto. lia.
    + destruct (name s m) as [[v u]|] eqn:N; [|exact Logic.I]. apply name_pos in N; [|auto|lia]. cbn [good]. lia.
  - intros acc. cbn [params]. destruct (done s i) eqn:D; [exact Logic.I|]. unfold done in D. destruct (expect s i (ch "_")); [cbn [good']; lia|]. assert (G : good i (parse f s i)) by (apply IH; auto; lia). destruct (parse f s i) as [| | |t u]; cbn [bind good good'] in *; auto. assert (G2 : good' u (params f s u (acc ++ [t]))) by (apply IH; unfold left in *; lia). destruct (params f s u (acc ++ [t])); cbn [good'] in *; auto. lia.
  - intros n acc. cbn [comps]. destruct (n <=? 0); [cbn [good']; lia|]. destruct (done s i) eqn:D; [exact Logic.I|]. unfold done in D. assert (G : good i (parse f s i)) by (apply IH; auto; lia). destruct (parse f s i) as [| | |t u]; cbn [bind good good'] in *; auto. assert (G2 : good' u (comps f s (n - 1) u (acc ++ [t]))) by (apply IH; unfold left in *; lia). destruct (comps f s (n - 1) u (acc ++ [t])); cbn [good'] in *; auto. lia.
Qed.
(** numbers of at most 18 digits *)
Definition few (s : str) : Prop := forall a d b, s = a ++ d ++ b -> alldig d = true -> (length d <= 18)%nat.
Lemma span_split : forall s, exists r, s = span s ++ r /\ alldig (span s) = true.
Proof.
  induction s as [|c s (r & E & A)]; [exists []; auto|]. cbn [span]. destruct (isdig c) eqn:D; [|exists (c :: s); auto]. exists r. cbn [app alldig]. rewrite <- E. change (isdigit c) with (isdig c). rewrite D. auto.
Qed.
Lemma value_lt : forall d v, alldig d = true -> 0 <= v -> value d v < (v + 1) * 10 ^ Z.of_nat (length d).
Proof.
  induction d as [|c d IH]; intros v D V; cbn [value length alldig] in *; [lia|]. apply andb_prop in D. destruct D as [D1 D2]. unfold isdigit in D1. apply andb_prop in D1. destruct D1 as [D1 D3]. apply Nat.leb_le in D1, D3. eapply Z.lt_le_trans; [apply IH; auto; lia|]. rewrite Nat2Z.inj_succ, Z.pow_succ_r by lia. rewrite Z.mul_assoc. apply Z.mul_le_mono_nonneg_r; [|lia]. apply Z.pow_nonneg. lia.
Qed.
Lemma few_short : forall s, size s < 2 ^ 32 -> few s -> short s.
Proof.
  intros s B F. split; auto. intros i v j H. unfold number in H. destruct (span_split (rest s i)) as (r & E & A). assert (L : (length (span (rest s i)) <= 18)%nat) by (apply (F (firstn (Z.to_nat i) s) _ r); auto; rewrite <- E; unfold rest; symmetry; apply firstn_skipn). pose proof (value_lt _ 0 A ltac:(lia)) as V. pose proof (Z.pow_le_mono_r 10 (Z.of_nat (length (span (rest s i)))) 18 ltac:(lia) ltac:(lia)) as P. change (10 ^ 18) with 1000000000000000000 in P. change (2 ^ 63) with 9223372036854775808.
  destruct (span (rest s i)) as [|c d]; [discriminate H|]. destruct (value (c :: d) 0 <? two64); [|discriminate H]. assert (X : v = value (c :: d) 0) by congruence. lia.
Qed.
Lemma few_prefix : forall s x, few (s ++ x) -> few s.
Proof. intros s x F a d b E. apply (F a d (b ++ x)). rewrite E, <- !app_assoc. auto. Qed.
Lemma removelast_prefix : forall s : str, exists x, s = removelast s ++ x.
Proof. intros s. destruct s as [|c s]; [exists []; auto|]. exists [last (c :: s) "000"%char]. apply app_removelast_last. discriminate. Qed.
Lemma chop_prefix : forall n s i s1, chop n s i = Some s1 -> exists x, s = s1 ++ x.
Proof.
  induction n as [|n IH]; intros s i s1 H; cbn [chop] in H; [injection H as <-; exists []; rewrite app_nil_r; auto|]. destruct (isdig (back s)); [|injection H as <-; exists []; rewrite app_nil_r; auto]. cbv zeta in H. destruct (size (removelast s) <=? i); [discriminate H|]. apply IH in H. destruct H as (x & E). destruct (removelast_prefix s) as (y & Y). exists (x ++ y). rewrite Y, E at 1. rewrite <- app_assoc. auto.
Qed.
Lemma strip_prefix : forall s n s2 i, strip s = Some (n, s2, i) -> (exists x, s = s2 ++ x) /\ 0 <= i < size s2.
Proof.
  intros s n s2 i H. unfold strip in H. destruct (size s <? 4); [discriminate H|]. destruct (is_prefix s 0 #"_X") as [i0|]; [|discriminate H]. destruct (negb (isdig (back s))); [discriminate H|]. destruct (name s i0) as [[m k]|] eqn:N; [|discriminate H]. destruct (chop (length s) s k) as [s1|] eqn:C; [|discriminate H]. destruct (Ascii.eqb (back s1) (ch "_")); [|discriminate H]. cbv zeta in H. destruct (k <? size (removelast s1)) eqn:L; [|discriminate H]. injection H as <- <- <-.
  apply chop_prefix in C. destruct C as (x & E). destruct (removelast_prefix s1) as (y & Y). split; [exists (y ++ x); rewrite E, Y at 1; rewrite <- app_assoc; auto|]. assert (0 <= k); [|lia]. unfold name in N. destruct (number s i0) as [[v u]|]; [|discriminate N]. cbv zeta in N. destruct (size s <? (u + v) mod two64); [discriminate N|]. injection N as _ <-. apply Z.mod_pos_bound. unfold two64. lia.
Qed.
Lemma demangle_ends : forall s f, size s < 2 ^ 32 -> few s -> (2 * length s + 1 <= f)%nat -> demangle f s <> NoFuel.
Proof.
  intros s f B F L. unfold demangle. destruct (strip s) as [[[n s2] i]|] eqn:E; [|discriminate]. apply strip_prefix in E. destruct E as [(x & ->) I]. apply few_prefix in F. rewrite size_app in B. pose proof (size_pos x). rewrite app_length in L. pose proof (proj1 (terminates s2 (few_short s2 ltac:(lia) F) f i (proj1 I)) ltac:(unfold left, size in *; lia)) as G. destruct (parse f s2 i); discriminate || (destruct G).
Qed.
