From Coq Require Import List Bool Arith Lia Permutation.
From Verif.Except Require Import Model Spec.
Import ListNotations.
(** one step of the evaluation, with the evaluation itself as a parameter *)
Definition rect := list (list pat) -> option nat -> code -> sg -> option (tout * sg).
Definition loopT (rec : rect) (ts : list (list pat)) (e : exn) (orig : list (list (pat * code))) :=
  fix loop (l : list (list (pat * code))) (s' : sg) : option (tout * sg) :=
    match l with
    | [] => Some (throw ts e (set_top s' orig))
    | hs :: r =>
        match find (fun h => fits e (fst h)) hs with
        | None => loop r (set_top s' r)
        | Some (_, h) =>
            match rec ts None h (say (set_top s' r) (Handled e)) with
            | None => None
            | Some (Ret true, s1) => Some (Nrm, set_top s1 orig)
            | Some (Unw f, s1) => Some (Unw f, set_top s1 orig)
            | Some (Dead w, s1) => Some (Dead w, s1)
            | Some (_, s1) => loop r s1
            end
        end
    end.
Definition landing (rec : rect) (ts : list (list pat)) (hs : list (pat * code)) (s1 : sg) : option (tout * sg) :=
  match cur s1 with
  | [] => Some (Dead Crash, s1)
  | (a, e, i) :: _ =>
      match i with
      | O => Some (Nrm, s1)
      | S j => match nth_error hs j with
          | None => Some (Nrm, s1)
          | Some (p, h) =>
              let v := nv s1 in
              let x := is_parent (fst p) (ty e) in
              let s2 := say (G (top s1) (cur s1) (fresh s1) (fun i => if i =? v then (if x then Some a else None) else vars s1 i) (S v) (freed s1) (outp s1)) (Caught (if x then Some e else None)) in
              match rec ts (Some v) h s2 with
              | None => None
              | Some (o, s3) => if dead o then Some (o, s3) else
                  match vars s3 v with
                  | None => Some (o, s3)
                  | Some a' => match delete a' s3 with Some s4 => Some (o, s4) | None => Some (Dead Crash, s3) end
                  end
              end
          end
      end
  end.
Definition tstep (rec : rect) (P : nat -> code) (ts : list (list pat)) (lx : option nat) (c : code) (s : sg) : option (tout * sg) :=
  match c with
  | CSkip => Some (Nrm, s)
  | COut k => Some (Nrm, say s (Printed k))
  | CSeq a b => match rec ts lx a s with Some (Nrm, s1) => rec ts lx b s1 | r => r end
  | CThrow e => Some (throw ts e s)
  | CRethrow => match lx with Some v => Some (begin_unwind ts (set_var s v None)) | None => Some (Dead Crash, s) end
  | CReturn b => Some (Ret b, s)
  | CCall f => match rec ts None (P f) s with Some (Ret _, s1) => Some (Nrm, s1) | r => r end
  | CHook f b =>
      match rec ts lx b s with
      | None => None
      | Some (o, s1) => if dead o then Some (o, s1) else
          match rec ts lx f s1 with Some (Nrm, s2) | Some (Ret _, s2) => Some (o, s2) | r => r end
      end
  | CNode hs b =>
      match rec ts lx b (set_top s (hs :: top s)) with
      | None => None
      | Some (o, s1) => Some (o, if dead o then s1 else set_top s1 (top s))
      end
  | CTerm b hs =>
      match rec (map fst hs :: ts) lx b s with
      | Some (Nrm, s1) | Some (Ret _, s1) => Some (Nrm, s1)
      | Some (Unw f, s1) => if f =? length ts then landing rec ts hs s1 else Some (Unw f, s1)
      | r => r
      end
  | CResume e => loopT rec ts e (top s) (top s) s
  end.
Lemma tev_S n P ts lx c s : tev (S n) P ts lx c s = tstep (tev n P) P ts lx c s.
Proof. reflexivity. Qed.
(** more fuel does not change a result *)
Definition le_rec (r1 r2 : rect) : Prop := forall ts lx c s x, r1 ts lx c s = Some x -> r2 ts lx c s = Some x.
Lemma loop_mono r1 r2 ts e orig l : le_rec r1 r2 -> forall s x, loopT r1 ts e orig l s = Some x -> loopT r2 ts e orig l s = Some x.
Proof.
  intros L. induction l as [|hs l IH]; intros s x H; cbn [loopT] in *; [auto|]. destruct (find _ hs) as [[p h]|]; [|auto].
  destruct (r1 ts None h _) as [[o s1]|] eqn:E; [|discriminate]. rewrite (L _ _ _ _ _ E). destruct o as [|[]| |]; auto.
Qed.
Lemma landing_mono r1 r2 ts hs s x : le_rec r1 r2 -> landing r1 ts hs s = Some x -> landing r2 ts hs s = Some x.
Proof.
  intros L H. unfold landing in *. destruct (cur s) as [|[[a e] [|j]] r]; auto. destruct (nth_error hs j) as [[p h]|]; auto. cbv zeta in *.
  match goal with H : match ?t with _ => _ end = _ |- _ => destruct t as [[o s3]|] eqn:E; [|discriminate] end. rewrite (L _ _ _ _ _ E). exact H.
Qed.
Lemma step_mono r1 r2 P : le_rec r1 r2 -> le_rec (tstep r1 P) (tstep r2 P).
Proof.
  intros L ts lx c s x H. destruct c as [|k|c1 c2|e| |e|b|c1 c2|hs c|c hs|f]; cbn [tstep] in *; auto.
  - destruct (r1 ts lx c1 s) as [[o s1]|] eqn:E; [|discriminate]. rewrite (L _ _ _ _ _ E). destruct o; auto.
  - eapply loop_mono; eauto.
  - destruct (r1 ts lx c2 s) as [[o s1]|] eqn:E; [|discriminate]. rewrite (L _ _ _ _ _ E). destruct (dead o); auto. destruct (r1 ts lx c1 s1) as [[o2 s2]|] eqn:E2; [|discriminate]. rewrite (L _ _ _ _ _ E2). auto.
  - destruct (r1 ts lx c _) as [[o s1]|] eqn:E; [|discriminate]. rewrite (L _ _ _ _ _ E). auto.
  - destruct (r1 _ lx c s) as [[o s1]|] eqn:E; [|discriminate]. rewrite (L _ _ _ _ _ E). destruct o; auto. destruct (_ =? _); auto. eapply landing_mono; eauto.
  - destruct (r1 ts None (P f) s) as [[o s1]|] eqn:E; [|discriminate]. rewrite (L _ _ _ _ _ E). auto.
Qed.
Lemma tev_mono1 P n : le_rec (tev n P) (tev (S n) P).
Proof.
  induction n as [|n IH]; [intros ts lx c s x H; discriminate|]. intros ts lx c s x H. rewrite tev_S in *. eapply step_mono; eauto.
Qed.
Lemma tev_mono P n m : n <= m -> le_rec (tev n P) (tev m P).
Proof. induction 1 as [|m L IH]; intros ts lx c s x H; auto. apply tev_mono1, IH, H. Qed.
(** the resume stack is what it was, however code ends *)
Lemma throw_top ts e s : top (snd (throw ts e s)) = top s.
Proof. unfold throw, begin_unwind. cbn [cur]. destruct (search e ts) as [[]|]; reflexivity. Qed.
Lemma begin_top ts s : top (snd (begin_unwind ts s)) = top s.
Proof. unfold begin_unwind. destruct (cur s) as [|[[a e] i] r]; auto. destruct (search e ts) as [[]|]; reflexivity. Qed.
Lemma delete_top a s s' : delete a s = Some s' -> top s' = top s.
Proof. unfold delete. destruct (unlink a (cur s)); [|discriminate]. intros [= <-]. reflexivity. Qed.
Theorem top_kept P n : forall ts lx c s o s', tev n P ts lx c s = Some (o, s') -> dead o = false -> top s' = top s.
Proof.
  induction n as [|n IH]; intros ts lx c s o s' H D; [discriminate|]. rewrite tev_S in H. destruct c as [|k|c1 c2|e| |e|b|c1 c2|hs c|c hs|f]; cbn [tstep] in H.
  - injection H as <- <-; auto.
  - injection H as <- <-; auto.
  - destruct (tev n P ts lx c1 s) as [[o1 s1]|] eqn:E; [|discriminate]. destruct o1; try (injection H as <- <-; eapply IH; eauto; fail). rewrite (IH _ _ _ _ _ _ H D). eapply IH; eauto.
  - injection H as H. pose proof (throw_top ts e s) as T. rewrite H in T. exact T.
  - destruct lx as [v|]; injection H as H; [|subst; discriminate]. pose proof (begin_top ts (set_var s v None)) as T. rewrite H in T. exact T.
  - match type of H with loopT ?r _ _ ?o0 ?l0 _ = _ => assert (G : forall l s0, loopT r ts e o0 l s0 = Some (o, s') -> top s' = o0) end; [|eauto]. clear H. induction l as [|hs l IHl]; intros s0 H; cbn [loopT] in H.
    + injection H as H. pose proof (throw_top ts e (set_top s0 (top s))) as T. rewrite H in T. exact T.
    + destruct (find _ hs) as [[p h]|]; [|eauto]. destruct (tev n P ts None h _) as [[o1 s1]|]; [|discriminate]. destruct o1 as [|[]| |]; eauto; injection H as <- <-; auto. discriminate.
  - injection H as <- <-; auto.
  - destruct (tev n P ts lx c2 s) as [[o1 s1]|] eqn:E; [|discriminate]. destruct (dead o1) eqn:D1; [injection H as <- <-; congruence|]. destruct (tev n P ts lx c1 s1) as [[o2 s2]|] eqn:E2; [|discriminate].
    assert (Q : dead o2 = false -> top s2 = top s) by (intros Q; rewrite (IH _ _ _ _ _ _ E2 Q); eapply IH; eauto). destruct o2; injection H as <- <-; auto.
  - destruct (tev n P ts lx c _) as [[o1 s1]|]; [|discriminate]. injection H as <- <-. rewrite D. reflexivity.
  - destruct (tev n P _ lx c s) as [[o1 s1]|] eqn:E; [|discriminate]. assert (Q : dead o1 = false -> top s1 = top s) by eauto. destruct o1; try (injection H as <- <-; auto; fail).
    destruct (_ =? _); [|injection H as <- <-; auto]. unfold landing in H. destruct (cur s1) as [|[[a e] [|j]] r]; try (injection H as <- <-; auto; discriminate). destruct (nth_error hs j) as [[p h]|]; [|injection H as <- <-; auto]. cbv zeta in H.
    match type of H with match ?t with _ => _ end = _ => destruct t as [[o3 s3]|] eqn:E3; [|discriminate] end. destruct (dead o3) eqn:D3; [injection H as <- <-; congruence|]. pose proof (IH _ _ _ _ _ _ E3 D3) as T3. cbn [top say] in T3.
    destruct (vars s3 (nv s1)) as [a'|]; [|injection H as <- <-; rewrite T3; auto]. destruct (delete a' s3) as [s4|] eqn:E4; injection H as <- <-; [|discriminate]. rewrite (delete_top _ _ _ E4), T3. auto.
  - destruct (tev n P ts None (P f) s) as [[o1 s1]|] eqn:E; [|discriminate]. assert (Q : dead o1 = false -> top s1 = top s) by eauto. destruct o1; injection H as <- <-; auto.
Qed.
(** translation *)
Definition trc (h : pat * stmt) : pat * code := (fst h, tr (snd h)).
Definition trr (h : pat * stmt) : pat * code := (fst h, CSeq (tr (snd h)) (CReturn true)).
Definition trh : list (list (pat * stmt)) -> list (list (pat * code)) := map (map trr).
Definition inner1 (hs : list (kind * pat * stmt)) (b : stmt) : code := match clauses Res hs with [] => tr b | l => CNode (map trr l) (tr b) end.
Definition inner2 (hs : list (kind * pat * stmt)) (b : stmt) : code := match clauses Term hs with [] => inner1 hs b | l => CTerm (inner1 hs b) (map trc l) end.
Lemma tr_try b hs f : tr (Try b hs f) = match f with None => inner2 hs b | Some f => CHook (tr f) (inner2 hs b) end.
Proof.
  assert (R : (fix go (hs : list (kind * pat * stmt)) := match hs with [] => [] | (Res, p, h) :: r => (p, CSeq (tr h) (CReturn true)) :: go r | (Term, _, _) :: r => go r end) hs = map trr (clauses Res hs)).
  { induction hs as [|[[[] p] h] hs IH]; [reflexivity|exact IH|]. unfold clauses in *. cbn [map concat fst snd app]. rewrite IH. reflexivity. }
  assert (T : (fix go (hs : list (kind * pat * stmt)) := match hs with [] => [] | (Term, p, h) :: r => (p, tr h) :: go r | (Res, _, _) :: r => go r end) hs = map trc (clauses Term hs)).
  { clear R. induction hs as [|[[[] p] h] hs IH]; [reflexivity| |exact IH]. unfold clauses in *. cbn [map concat fst snd app]. rewrite IH. reflexivity. }
  cbn [tr]. cbv zeta. rewrite R, T. unfold inner2, inner1. destruct (clauses Res hs) as [|x l]; destruct (clauses Term hs) as [|y l']; reflexivity.
Qed.
Lemma ok_clauses hs : (fix go (hs : list (kind * pat * stmt)) := match hs with [] => true | (Term, _, h) :: r => ok true false h && go r | (Res, _, h) :: r => ok false true h && go r end) hs = true ->
  Forall (fun h => ok true false (snd h) = true) (clauses Term hs) /\ Forall (fun h => ok false true (snd h) = true) (clauses Res hs).
Proof.
  unfold clauses. induction hs as [|[[[] p] h] hs IH]; intros H; cbn [map concat fst snd app]; [split; constructor| |]; apply andb_true_iff in H; destruct H as [H1 H2]; destruct (IH H2); auto.
Qed.
(** search *)
Lemma matcher_pick e hs : forall k, match find (fun h : pat * stmt => fits e (fst h)) hs with None => matcher e (S k) (map fst hs) = 0 | Some h => exists j, matcher e (S k) (map fst hs) = S (k + j) /\ nth_error hs j = Some h /\ fits e (fst h) = true end.
Proof.
  induction hs as [|h hs IH]; intros k; cbn [find map matcher]; auto. destruct (fits e (fst h)) eqn:F.
  - exists 0. rewrite Nat.add_0_r. auto.
  - specialize (IH (S k)). destruct (find _ hs) as [h'|]; auto. destruct IH as (j & I1 & I2 & I3). exists (S j). rewrite I1. split; [f_equal; lia|auto].
Qed.
Lemma matcher_caught e m : forall k, if existsb (fits e) m then matcher e (S k) m <> 0 else matcher e (S k) m = 0.
Proof. induction m as [|p m IH]; intros k; cbn [existsb matcher]; auto. destruct (fits e p); cbn [orb]; [lia|apply IH]. Qed.
Lemma search_caught e ts : if caught e ts then exists f i, search e ts = Some (f, i) else search e ts = None.
Proof.
  unfold caught. induction ts as [|m ts IH]; cbn [existsb search]; auto. pose proof (matcher_caught e m 0) as M. destruct (existsb (fits e) m); cbn [orb].
  - destruct (matcher e 1 m); [congruence|eauto].
  - rewrite M. exact IH.
Qed.
Lemma search_lt e ts f i : search e ts = Some (f, i) -> f < length ts.
Proof. induction ts as [|m ts IH]; cbn [search length]; [discriminate|]. destruct (matcher e 1 m); [intros H; specialize (IH H); lia|intros [= <- _]; lia]. Qed.
Lemma fits_parent e p : fits e p = true -> is_parent (fst p) (ty e) = true.
Proof. unfold fits. rewrite andb_true_iff. tauto. Qed.
(** memory *)
Definition addr (x : nat * exn * nat) : nat := fst (fst x).

Definition good (s : sg) : Prop := Permutation (freed s ++ map addr (cur s)) (seq 0 (fresh s)).
Lemma nodup_app_r {A} (l l' : list A) : NoDup (l ++ l') -> NoDup l'.
Proof. induction l as [|x l IH]; cbn [app]; auto. intros N. inversion N; auto. Qed.
Lemma good_nodup s : good s -> NoDup (map addr (cur s)).
Proof. intros H. apply Permutation_sym in H. pose proof (Permutation_NoDup H (seq_NoDup _ _)) as N. apply nodup_app_r in N. auto. Qed.

Lemma good_push s e : good s -> good (G (top s) ((fresh s, e, 0) :: cur s) (S (fresh s)) (vars s) (nv s) (freed s) (outp s)).
Proof.
  unfold good. cbn [freed cur fresh map addr fst]. intros H. rewrite seq_S. cbn [Nat.add]. apply Permutation_sym. eapply Permutation_trans; [|apply Permutation_middle]. eapply Permutation_trans; [apply Permutation_sym, Permutation_cons_append|]. constructor. apply Permutation_sym; auto.
Qed.
(** how runs are related *)
Definition same (s s' : sg) : Prop := forall i, i < nv s -> vars s' i = vars s i.
(** from s to s' nothing happened but events *)
Record link (s : sg) (l : list ev) (s' : sg) : Prop := { k_out : outp s' = outp s ++ l; k_nv : nv s <= nv s'; k_cur : cur s' = cur s; k_vars : same s s'; k_good : good s' }.
Definition again (rt : bool) (cx : option exn) (lx : option nat) (s : sg) (e : exn) (i : nat) (s' : sg) : Prop :=
  rt = true /\ exists v a j r, lx = Some v /\ cx = Some e /\ cur s = (a, e, j) :: r /\ vars s v = Some a /\ v < nv s /\ cur s' = (a, e, i) :: r /\ vars s' v = None /\ (forall k, k < nv s -> k <> v -> vars s' k = vars s k).
Definition post (ts : list (list pat)) (rt rr : bool) (cx : option exn) (lx : option nat) (s : sg) (o : sout) (l : list ev) (o' : tout) (s' : sg) : Prop :=
  match o with
  | Done => o' = Nrm /\ link s l s'
  | Decl => rr = true /\ o' = Ret false /\ link s l s'
  | Raise e => exists f i, search e ts = Some (f, i) /\ o' = Unw f /\ outp s' = outp s ++ l /\ nv s <= nv s' /\ good s' /\ ((exists a, cur s' = (a, e, i) :: cur s /\ same s s') \/ again rt cx lx s e i s')
  | Fail e => o' = Dead (Uncaught e) /\ outp s' = outp s ++ l
  end.
Lemma post_dead ts rt rr cx lx s o l o' s' : post ts rt rr cx lx s o l o' s' -> dead o' = match o with Fail _ => true | _ => false end.
Proof. destruct o; cbn [post]; [intros [-> _]|intros (_ & -> & _)|intros (f & i & _ & -> & _)|intros [-> _]]; reflexivity. Qed.
Lemma link_refl s : good s -> link s [] s.
Proof. intros H. constructor; auto; [rewrite app_nil_r; auto|intros i _; auto]. Qed.
Lemma link_trans s1 l1 s2 l2 s3 : link s1 l1 s2 -> link s2 l2 s3 -> link s1 (l1 ++ l2) s3.
Proof. intros [A1 A2 A3 A4 A5] [B1 B2 B3 B4 B5]. constructor; auto; [rewrite B1, A1, app_assoc; auto|lia|congruence|]. intros i L. rewrite B4, A4; auto. lia. Qed.
Definition inscope (rt : bool) (lx : option nat) (s : sg) : Prop := rt = true -> exists v, lx = Some v /\ v < nv s.
Lemma post_after ts rt rr cx lx s l1 s1 o l2 o' s' : inscope rt lx s -> link s l1 s1 -> post ts rt rr cx lx s1 o l2 o' s' -> post ts rt rr cx lx s o (l1 ++ l2) o' s'.
Proof.
  intros Sc K. destruct o as [| |e|e]; cbn [post].
  - intros [-> L]. split; auto. eapply link_trans; eauto.
  - intros (R & -> & L). split; [|split]; auto. eapply link_trans; eauto.
  - intros (f & i & S1 & -> & O1 & N1 & G1 & C). exists f, i. destruct K as [A1 A2 A3 A4 A5]. split; [auto|]. split; [auto|]. split; [rewrite O1, A1, app_assoc; auto|]. split; [lia|]. split; [auto|]. destruct C as [(a & C1 & C2)|(Rt & v & a & j & r & C1 & C2 & C3 & C4 & C5 & C6 & C7 & C8)].
    + left. exists a. split; [congruence|]. intros k L. rewrite C2, A4; auto. lia.
    + destruct (Sc Rt) as (v' & E & Lv). assert (v' = v) by congruence. subst v'. right. split; [auto|]. exists v, a, j, r. rewrite <- A3. rewrite A4 in C4 by auto. repeat split; auto. intros k Lk Nk. rewrite C8, A4; auto. lia.
  - intros [-> O]. split; auto. rewrite O, (k_out _ _ _ K), app_assoc. auto.
Qed.
Lemma post_before ts rt rr cx lx s o l1 o' s1 l2 s' : match o with Fail _ => False | _ => True end -> post ts rt rr cx lx s o l1 o' s1 -> link s1 l2 s' -> post ts rt rr cx lx s o (l1 ++ l2) o' s'.
Proof.
  intros NF Po K. destruct o as [| |e|e]; cbn [post] in *; [| | |tauto].
  - destruct Po as [-> L]. split; auto. eapply link_trans; eauto.
  - destruct Po as (R & -> & L). split; [|split]; auto. eapply link_trans; eauto.
  - destruct Po as (f & i & S1 & -> & O1 & N1 & G1 & C). exists f, i. destruct K as [A1 A2 A3 A4 A5]. split; [auto|]. split; [auto|]. split; [rewrite A1, O1, app_assoc; auto|]. split; [lia|]. split; [auto|]. destruct C as [(a & C1 & C2)|(Rt & v & a & j & r & C1 & C2 & C3 & C4 & C5 & C6 & C7 & C8)].
    + left. exists a. split; [congruence|]. intros k L. rewrite A4, C2; auto. lia.
    + right. split; [auto|]. exists v, a, j, r. repeat split; auto; [congruence|rewrite A4; auto; lia|]. intros k Lk Nk. rewrite A4, C8; auto. lia.
Qed.
Lemma post_false ts rt rr rr' cx lx cx' lx' s o l o' s' : post ts false rr cx lx s o l o' s' -> (rr = true -> rr' = true) -> post ts rt rr' cx' lx' s o l o' s'.
Proof.
  intros Po Q. destruct o as [| |e|e]; cbn [post] in *; auto.
  - destruct Po as (R & -> & L). auto.
  - destruct Po as (f & i & S1 & -> & O1 & N1 & G1 & [C|(B & _)]); [|discriminate]. exists f, i. repeat split; auto.
Qed.
Lemma link_top s t l s' t' : link s l s' -> link (set_top s t) l (set_top s' t').
Proof. intros [A1 A2 A3 A4 A5]. constructor; auto. Qed.
Lemma post_top ts rt rr cx lx s o l o' s' t t' : post ts rt rr cx lx s o l o' s' -> post ts rt rr cx lx (set_top s t) o l o' (set_top s' t').
Proof.
  destruct o as [| |e|e]; cbn [post].
  - intros [-> L]. split; auto. apply link_top; auto.
  - intros (R & -> & L). split; [|split]; auto. apply link_top; auto.
  - intros H. exact H.
  - intros H. exact H.
Qed.
Lemma set_top_top s : set_top s (top s) = s.
Proof. destruct s; reflexivity. Qed.
Lemma set_top_twice s t t' : set_top (set_top s t) t' = set_top s t'.
Proof. reflexivity. Qed.
Lemma throw_post ts rr cx lx s e : good s -> post ts false rr cx lx s (if caught e ts then Raise e else Fail e) [] (fst (throw ts e s)) (snd (throw ts e s)).
Proof.
  intros Go. pose proof (search_caught e ts) as C. unfold throw, begin_unwind. cbn [cur]. destruct (caught e ts).
  - destruct C as (f & i & C). rewrite C. cbn [fst snd post]. exists f, i. split; auto. split; auto. cbn [set_cur outp nv]. rewrite app_nil_r. split; auto. split; auto. split; [exact (good_push s e Go)|]. left. exists (fresh s). split; [reflexivity|]. intros k _. reflexivity.
  - rewrite C. cbn [fst snd post outp]. rewrite app_nil_r. auto.
Qed.
Definition pre (s : sg) (rt : bool) (cx : option exn) (lx : option nat) : Prop := rt = true -> exists e v a i r, cx = Some e /\ lx = Some v /\ v < nv s /\ vars s v = Some a /\ cur s = (a, e, i) :: r.
Lemma pre_scope s rt cx lx : pre s rt cx lx -> inscope rt lx s.
Proof. intros H Q. destruct (H Q) as (e & v & a & i & r & _ & A & B & _). eauto. Qed.
Lemma pre_link s l s' rt cx lx : link s l s' -> pre s rt cx lx -> pre s' rt cx lx.
Proof. intros [A1 A2 A3 A4 A5] H Q. destruct (H Q) as (e & v & a & i & r & C1 & C2 & C3 & C4 & C5). exists e, v, a, i, r. repeat split; auto; [lia|rewrite A4; auto|congruence]. Qed.
Lemma find_trr e hs : find (fun h => fits e (fst h)) (map trr hs) = option_map trr (find (fun h : pat * stmt => fits e (fst h)) hs).
Proof. induction hs as [|h hs IH]; auto. cbn [map find]. change (fst (trr h)) with (fst h). destruct (fits e (fst h)); auto. Qed.
Lemma good_delete s a e i r : good s -> cur s = (a, e, i) :: r -> delete a s = Some (G (top s) r (fresh s) (vars s) (nv s) (freed s ++ [a]) (outp s)) /\ good (G (top s) r (fresh s) (vars s) (nv s) (freed s ++ [a]) (outp s)).
Proof.
  intros Go E. unfold delete. rewrite E. cbn [unlink fst]. rewrite Nat.eqb_refl. split; auto. unfold good in *. cbn [freed cur fresh]. rewrite E in Go. cbn [map addr fst] in Go. rewrite <- app_assoc. exact Go.
Qed.
Lemma good_delete2 s x a e i r : good s -> cur s = x :: (a, e, i) :: r -> delete a s = Some (G (top s) (x :: r) (fresh s) (vars s) (nv s) (freed s ++ [a]) (outp s)) /\ good (G (top s) (x :: r) (fresh s) (vars s) (nv s) (freed s ++ [a]) (outp s)).
Proof.
  intros Go E. pose proof (good_nodup _ Go) as N. unfold delete. rewrite E in *. cbn [map] in N. inversion N as [|? ? N1 N2]; subst. cbn [unlink]. destruct (Nat.eqb_spec (fst (fst x)) a) as [Q|Q].
  - destruct N1. cbn [addr fst]. unfold addr at 1. rewrite Q. left. reflexivity.
  - cbn [fst]. rewrite Nat.eqb_refl. split; auto. unfold good in *. cbn [freed cur fresh]. rewrite E in Go. cbn [map] in *. change (addr (a, e, i)) with a in Go. rewrite <- app_assoc. cbn [app]. eapply Permutation_trans; [|exact Go]. apply Permutation_app_head. apply perm_swap.
Qed.
Section S.
Variable P : nat -> stmt.
Hypothesis HP : forall f, ok false false (P f) = true.
Let tP f := tr (P f).
Definition okr (rs : list (list (pat * stmt))) : Prop := Forall (Forall (fun h => ok false true (snd h) = true)) rs.
Lemma seq_nrm m ts lx a b s s1 r : tev m tP ts lx a s = Some (Nrm, s1) -> tev m tP ts lx b s1 = Some r -> tev (S m) tP ts lx (CSeq a b) s = Some r.
Proof. intros A B. rewrite tev_S. cbn [tstep]. rewrite A. exact B. Qed.
Lemma seq_stop m ts lx a b s o s1 : tev m tP ts lx a s = Some (o, s1) -> o <> Nrm -> tev (S m) tP ts lx (CSeq a b) s = Some (o, s1).
Proof. intros A B. rewrite tev_S. cbn [tstep]. rewrite A. destruct o; congruence. Qed.
Theorem core n : forall rs ts cx s rt rr, ok rt rr s = true -> okr rs -> forall o l, sev n P rs ts cx s = Some (o, l, false) ->
  forall g lx, good g -> top g = trh rs -> pre g rt cx lx -> exists m o' g', tev m tP ts lx (tr s) g = Some (o', g') /\ post ts rt rr cx lx g o l o' g'.
Proof.
  induction n as [|n IH]; intros rs ts cx s rt rr Ok Rs o l H g lx Go Tp Pr; [discriminate|]. destruct s as [|k|a b|e| |e| |b hs f|f]; cbn [sev] in H.
  - injection H as <- <-. exists 1, Nrm, g. split; [reflexivity|]. split; auto. apply link_refl; auto.
  - injection H as <- <-. exists 1, Nrm, (say g (Printed k)). split; [reflexivity|]. split; auto. constructor; auto. intros i _. reflexivity.
  - cbn [ok] in Ok. apply andb_true_iff in Ok. destruct Ok as [Oa Ob]. destruct (sev n P rs ts cx a) as [[[oa la] xa]|] eqn:Ea; [|discriminate].
    assert (X : xa = false). { destruct oa; try (injection H as _ _ ?; auto; fail). destruct (sev n P rs ts cx b) as [[[ob lb] xb]|]; [|discriminate]. injection H as _ _ X. apply orb_false_iff in X. tauto. } subst xa.
    destruct (IH _ _ _ _ _ _ Oa Rs _ _ Ea g lx Go Tp Pr) as (m1 & o1 & g1 & E1 & P1). destruct oa as [| |e|e].
    + destruct (sev n P rs ts cx b) as [[[ob lb] xb]|] eqn:Eb; [|discriminate]. injection H as <- <- X. cbn [orb] in X. subst xb. destruct P1 as [-> L1].
      destruct (IH _ _ _ _ _ _ Ob Rs _ _ Eb g1 lx) as (m2 & o2 & g2 & E2 & P2); [apply (k_good _ _ _ L1)|rewrite (top_kept _ _ _ _ _ _ _ _ E1 eq_refl); auto|eapply pre_link; eauto|].
      exists (S (max m1 m2)), o2, g2. split; [|eapply post_after; eauto; eapply pre_scope; eauto]. eapply seq_nrm; [eapply tev_mono; [|exact E1]; lia|eapply tev_mono; [|exact E2]; lia].
    + injection H as <- <-. exists (S m1), o1, g1. split; auto. apply seq_stop; auto. destruct P1 as (_ & -> & _). discriminate.
    + injection H as <- <-. exists (S m1), o1, g1. split; auto. apply seq_stop; auto. destruct P1 as (? & ? & _ & -> & _). discriminate.
    + injection H as <- <-. exists (S m1), o1, g1. split; auto. apply seq_stop; auto. destruct P1 as (-> & _). discriminate.
  - injection H as <- <-. exists 1, (fst (throw ts e g)), (snd (throw ts e g)). split; [rewrite tev_S; cbn [tr tstep]; destruct (throw ts e g); reflexivity|]. apply (post_false ts rt rr rr cx lx cx lx); [apply throw_post; auto|auto].
  - cbn [ok] in Ok. destruct (Pr Ok) as (e & v & a & i & r & -> & -> & Lv & Va & Cu). injection H as <- <-. pose proof (search_caught e ts) as C.
    exists 1. rewrite tev_S. cbn [tr tstep]. unfold begin_unwind. cbn [cur set_var]. rewrite Cu. destruct (caught e ts).
    + destruct C as (f & j & C). rewrite C. do 2 eexists. split; [reflexivity|]. cbn [post]. exists f, j. split; [auto|]. split; [auto|]. cbn [set_cur set_var outp nv]. rewrite app_nil_r. split; [auto|]. split; [auto|]. split; [unfold good in *; cbn [freed cur fresh set_cur set_var]; rewrite Cu in Go; exact Go|].
      right. split; auto. exists v, a, i, r. cbn [set_cur set_var cur vars]. rewrite Nat.eqb_refl. repeat split; auto. intros k Lk Nk. destruct (Nat.eqb_spec k v); congruence.
    + rewrite C. do 2 eexists. split; [reflexivity|]. split; auto. cbn [set_var outp]. rewrite app_nil_r. auto.
  - (* Resume *)
    match type of H with ?F rs = _ => set (sl := F) in H end.
    assert (LP : forall l0, okr l0 -> forall g1 l1 o0 l2, link g l1 g1 -> sl l0 = Some (o0, l2, false) -> exists m o' g2, loopT (tev m tP) ts e (top g) (trh l0) g1 = Some (o', g2) /\ post ts false rr cx lx g o0 (l1 ++ l2) o' g2).
    { induction l0 as [|hs l0 IHl]; intros R0 g1 l1 o0 l2 K H0.
      - cbn in H0. injection H0 as <- <-. exists 1. cbn [loopT trh map]. exists (fst (throw ts e (set_top g1 (top g)))), (snd (throw ts e (set_top g1 (top g)))). split; [destruct (throw ts e _); reflexivity|].
        eapply post_after; [intros Q; discriminate| |apply throw_post; apply (k_good _ _ _ K)]. rewrite <- (set_top_top g) at 1. apply link_top; auto.
      - inversion R0 as [|? ? R1 R2]; subst. cbn in H0. fold sl in H0. cbn [trh map loopT]. fold (trh l0). unfold pick in H0. rewrite find_trr. destruct (find (fun h => fits e (fst h)) hs) as [h|] eqn:Ef; cbn [option_map] in *.
        + destruct (sev n P l0 ts None (snd h)) as [[[oh lh] xh]|] eqn:Eh; [|discriminate]. assert (Okh : ok false true (snd h) = true). { apply find_some in Ef. rewrite Forall_forall in R1. apply R1. tauto. }
          assert (X : xh = false). { destruct oh; try (injection H0 as _ _ ?; auto; fail). destruct (sl l0) as [[[ob lb] xb]|]; [|discriminate]. injection H0 as _ _ X. apply orb_false_iff in X. tauto. } subst xh.
          set (gh := say (set_top g1 (trh l0)) (Handled e)). assert (Kh : link g (l1 ++ [Handled e]) gh). { destruct K as [A1 A2 A3 A4 A5]. constructor; auto. unfold gh. cbn [say set_top outp]. rewrite A1, app_assoc. auto. }
          destruct (IH _ _ _ _ _ _ Okh R2 _ _ Eh gh None) as (m1 & oo & g2 & E1 & P1); [apply (k_good _ _ _ Kh)|reflexivity|intros Q; discriminate|].
          change (trr h) with (fst h, CSeq (tr (snd h)) (CReturn true)). cbv iota beta. destruct oh as [| |e2|e2].
          * injection H0 as <- <-. destruct P1 as [-> L1]. exists (S (S m1)), Nrm, (set_top g2 (top g)). split.
            -- rewrite (seq_nrm (S m1) ts None _ _ gh g2 (Ret true, g2)); [reflexivity|apply tev_mono1; exact E1|reflexivity].
            -- split; auto. replace (l1 ++ Handled e :: lh) with ((l1 ++ [Handled e]) ++ lh) by (rewrite <- app_assoc; reflexivity). rewrite <- (set_top_top g) at 1. apply link_top. eapply link_trans; eauto.
          * destruct (sl l0) as [[[ob lb] xb]|] eqn:El; [|discriminate]. injection H0 as <- <- X. cbn [orb] in X. subst xb. destruct P1 as (_ & -> & L1).
            destruct (IHl R2 g2 (l1 ++ Handled e :: lh) ob lb) as (m2 & o2 & g3 & E2 & P2); [|auto|].
            { replace (l1 ++ Handled e :: lh) with ((l1 ++ [Handled e]) ++ lh) by (rewrite <- app_assoc; reflexivity). eapply link_trans; eauto. }
            exists (S (max m1 m2)), o2, g3. split; [|rewrite <- app_assoc in P2; exact P2]. rewrite (seq_stop (max m1 m2) ts None _ _ gh (Ret false) g2); [|eapply tev_mono; [|exact E1]; lia|discriminate]. eapply loop_mono; [|exact E2]. apply tev_mono. lia.
          * injection H0 as <- <-. assert (Q : oo <> Nrm) by (destruct P1 as (? & ? & _ & -> & _); discriminate). destruct P1 as (f & i & S1 & -> & P1). exists (S m1), (Unw f), (set_top g2 (top g)). split.
            -- rewrite (seq_stop m1 ts None _ _ gh (Unw f) g2); auto.
            -- replace (l1 ++ Handled e :: lh) with ((l1 ++ [Handled e]) ++ lh) by (rewrite <- app_assoc; reflexivity). eapply post_after; [intros Z; discriminate|exact Kh|]. rewrite <- (set_top_top gh). apply post_top. eapply post_false; [|intros Z; discriminate Z || exact Z]. cbn [post]. exists f, i. split; [exact S1|]. split; [reflexivity|exact P1].
          * injection H0 as <- <-. destruct P1 as [-> P1]. exists (S m1), (Dead (Uncaught e2)), g2. split; [rewrite (seq_stop m1 ts None _ _ gh (Dead (Uncaught e2)) g2); auto; discriminate|]. split; auto. rewrite P1, (k_out _ _ _ Kh), <- !app_assoc. reflexivity.
        + destruct (IHl R2 (set_top g1 (trh l0)) l1 o0 l2) as (m2 & o2 & g3 & E2 & P2); [|auto|eauto]. rewrite <- (set_top_top g) at 1. apply link_top; auto. }
    destruct (LP rs Rs g [] o l (link_refl _ Go) H) as (m & o' & g2 & E & P2). exists (S m), o', g2. split; [rewrite tev_S; cbn [tr tstep]; rewrite Tp in *; exact E|]. eapply post_false; [exact P2|auto].
  - cbn [ok] in Ok. injection H as <- <-. exists 1, (Ret false), g. split; [reflexivity|]. split; auto. split; auto. apply link_refl; auto.
  - (* Try *)
    cbn [ok] in Ok. apply andb_true_iff in Ok. destruct Ok as [Ok Of]. apply andb_true_iff in Ok. destruct Ok as [Okb Okh]. cbv zeta in Okb. destruct (ok_clauses hs Okh) as [Okt Okr].
    cbv zeta in H. set (rs' := match clauses Res hs with [] => rs | _ => clauses Res hs :: rs end) in H. set (ts' := match clauses Term hs with [] => ts | _ => map fst (clauses Term hs) :: ts end) in H.
    destruct (sev n P rs' ts' cx b) as [[[ob lb] xb]|] eqn:Eb; [|discriminate].
    match type of H with match ?M with _ => _ end = _ => destruct M as [[[om lm] xm]|] eqn:Em; [|destruct f; discriminate] end.
    assert (Xm : xm = false). { destruct om; try (injection H as _ _ ?; auto; fail); (destruct f as [f|]; [|injection H as _ _ ?; auto; fail]); destruct (sev n P rs ts cx f) as [[[[] lf] xf]|]; try discriminate; injection H as _ _ X; repeat (apply orb_false_iff in X; destruct X as [X ?]); auto. }
    assert (Xb : xb = false). { destruct ob; try (injection Em as _ _ ?; congruence). destruct (pick e (clauses Term hs)); [|injection Em as _ _ ?; congruence]. destruct (sev n P rs ts (Some e) s) as [[[o2 l2] x2]|]; [|discriminate]. injection Em as _ _ X. rewrite Xm in X. apply orb_false_iff in X. tauto. }
    subst xm xb. set (t := match clauses Term hs with [] => true | _ => false end) in Okb.
    assert (A : exists m o1 g1, tev m tP ts' lx (inner1 hs b) g = Some (o1, g1) /\ post ts' (rt && t) (rr && t) cx lx g ob lb o1 g1).
    { assert (Pr' : forall g0, cur g0 = cur g -> vars g0 = vars g -> nv g0 = nv g -> pre g0 (rt && t) cx lx).
      { intros g0 Q1 Q2 Q3 Q. apply andb_true_iff in Q. destruct Q as [Q _]. destruct (Pr Q) as (e & v & a & i & r & C1 & C2 & C3 & C4 & C5). exists e, v, a, i, r. rewrite Q1, Q2, Q3. auto. }
      unfold inner1. destruct (clauses Res hs) as [|h0 hr] eqn:Er.
      - destruct (IH rs' ts' cx b _ _ Okb Rs _ _ Eb g lx Go Tp (Pr' g eq_refl eq_refl eq_refl)) as (m & o1 & g1 & E1 & P1). eauto.
      - set (g0 := set_top g (map trr (h0 :: hr) :: top g)). destruct (IH rs' ts' cx b _ _ Okb (Forall_cons _ Okr Rs) _ _ Eb g0 lx Go) as (m & o1 & g1 & E1 & P1); [cbn [g0 set_top top]; rewrite Tp; reflexivity|apply Pr'; reflexivity|].
        exists (S m), o1, (if dead o1 then g1 else set_top g1 (top g)). split; [rewrite tev_S; cbn [tstep]; fold g0; rewrite E1; reflexivity|]. rewrite (post_dead _ _ _ _ _ _ _ _ _ _ P1).
        pose proof (post_top _ _ _ _ _ _ _ _ _ _ (top g) (top g) P1) as Q. change (set_top g0 (top g)) with (set_top g (top g)) in Q. rewrite (set_top_top g) in Q. destruct ob; [exact Q|exact Q|exact Q|exact P1]. }
    destruct A as (m1 & o1 & g1 & E1 & P1).
    assert (B : exists m o2 g2, tev m tP ts lx (inner2 hs b) g = Some (o2, g2) /\ post ts rt rr cx lx g om lm o2 g2).
    { unfold inner2. subst ts' t. destruct (clauses Term hs) as [|h0 ht] eqn:Et.
      - rewrite !andb_true_r in P1. assert (Q : om = ob /\ lm = lb). { destruct ob; injection Em as <- <-; auto. } destruct Q as [-> ->]. eauto.
      - rewrite !andb_false_r in P1. remember (h0 :: ht) as ths eqn:Eths. clear Eths h0 ht.
        assert (Mf : map fst (map trc ths) = map fst ths) by (rewrite map_map; reflexivity).
        destruct ob as [| |e|e]; cbn [post] in P1.
        + injection Em as <- <-. destruct P1 as [-> L1]. exists (S m1), Nrm, g1. split; [rewrite tev_S; cbn [tstep]; rewrite Mf, E1; reflexivity|]. split; auto.
        + destruct P1 as (Z & _); discriminate.
        + destruct P1 as (f0 & i & Se & -> & Ou & Nv & Go1 & [(a & Cu & Sa)|(Z & _)]); [|discriminate]. cbn [search] in Se. pose proof (matcher_pick e ths 0) as MP. unfold pick in Em. destruct (find (fun h => fits e (fst h)) ths) as [h|] eqn:Ef; cbn [option_map] in Em.
          * destruct MP as (j & M1 & M2 & M3). rewrite M1 in Se. cbn [Nat.add] in Se. injection Se as <- <-.
            destruct (sev n P rs ts (Some e) (snd h)) as [[[oh lh] xh]|] eqn:Eh; [|discriminate]. injection Em as <- <- X. cbn [orb] in X. subst xh.
            set (v := nv g1). set (gh := say (G (top g1) (cur g1) (fresh g1) (fun k => if k =? v then Some a else vars g1 k) (S v) (freed g1) (outp g1)) (Caught (Some e))).
            assert (Okh1 : ok true false (snd h) = true). { rewrite Forall_forall in Okt. apply Okt. eapply nth_error_In; eauto. }
            destruct (IH rs ts (Some e) (snd h) true false Okh1 Rs _ _ Eh gh (Some v)) as (m2 & o3 & g3 & E3 & P3); [exact Go1|cbn [gh say top]; rewrite (top_kept _ _ _ _ _ _ _ _ E1 eq_refl); exact Tp| |].
            { intros _. exists e, v, a, (S j), (cur g). cbn [gh say nv vars cur]. rewrite Nat.eqb_refl. repeat split; auto. }
            assert (La : forall x, landing (tev (max m1 m2) tP) ts (map trc ths) g1 = x -> tev (S (max m1 m2)) tP ts lx (CTerm (inner1 hs b) (map trc ths)) g = x).
            { intros x Q. rewrite tev_S. cbn [tstep]. rewrite Mf, (tev_mono _ m1 (max m1 m2) ltac:(lia) _ _ _ _ _ E1), Nat.eqb_refl. exact Q. }
            assert (Ll : landing (tev (max m1 m2) tP) ts (map trc ths) g1 = if dead o3 then Some (o3, g3) else match vars g3 v with None => Some (o3, g3) | Some a' => match delete a' g3 with Some g4 => Some (o3, g4) | None => Some (Dead Crash, g3) end end).
            { unfold landing. rewrite Cu. rewrite (map_nth_error trc _ _ M2). cbn [trc]. cbv zeta. cbn [fst snd]. rewrite (fits_parent _ _ M3). fold v.
              assert (Egh : say (G (top g1) (cur g1) (fresh g1) (fun k => if k =? v then Some a else vars g1 k) (S v) (freed g1) (outp g1)) (Caught (Some e)) = gh) by reflexivity.
              rewrite <- Cu. rewrite Egh, (tev_mono _ m2 (max m1 m2) ltac:(lia) _ _ _ _ _ E3). reflexivity. }
            assert (Og : forall lh', outp g3 = outp gh ++ lh' -> outp g3 = outp g ++ lb ++ Caught (Some e) :: lh'). { intros lh' Q. rewrite Q. cbn [gh say outp]. rewrite Ou, <- !app_assoc. reflexivity. }
            destruct oh as [| |e2|e2]; cbn [post] in P3.
            -- destruct P3 as [-> [K1 K2 K3 K4 K5]]. cbn [dead] in Ll. assert (Vv : vars g3 v = Some a). { rewrite K4; [cbn [gh say vars]; rewrite Nat.eqb_refl; auto|cbn [gh say nv]; lia]. } rewrite Vv in Ll.
               cbn [gh say cur] in K3. rewrite Cu in K3. destruct (good_delete _ _ _ _ _ K5 K3) as [D1 D2]. rewrite D1 in Ll. do 3 eexists. split; [apply La; exact Ll|]. split; auto. constructor; cbn [outp nv cur vars]; auto.
               ++ cbn [gh say nv] in K2. fold v in Nv. lia.
               ++ intros k Lk. cbn [vars]. rewrite K4; [|cbn [gh say nv]; fold v in Nv; lia]. cbn [gh say vars]. destruct (Nat.eqb_spec k v); [fold v in Nv; lia|]. apply Sa; auto.
            -- destruct P3 as (Z & _); discriminate.
            -- destruct P3 as (f2 & i2 & S2 & -> & O2 & N2 & G2 & C). cbn [dead] in Ll. destruct C as [(a2 & C1 & C2)|(_ & v' & a' & j' & r' & C1 & C2 & C3 & C4 & C5 & C6 & C7 & C8)].
               ++ assert (Vv : vars g3 v = Some a). { rewrite C2; [cbn [gh say vars]; rewrite Nat.eqb_refl; auto|cbn [gh say nv]; lia]. } rewrite Vv in Ll.
                  cbn [gh say cur] in C1. rewrite Cu in C1. destruct (good_delete2 _ _ _ _ _ _ G2 C1) as [D1 D2]. rewrite D1 in Ll. do 3 eexists. split; [apply La; exact Ll|]. cbn [post]. exists f2, i2. cbn [outp nv cur vars]. split; [auto|]. split; [auto|]. split; [auto|]. split; [cbn [gh say nv] in N2; fold v in Nv; lia|]. split; [auto|].
                  left. exists a2. split; [auto|]. intros k Lk. cbn [vars]. rewrite C2; [|cbn [gh say nv]; fold v in Nv; lia]. cbn [gh say vars]. destruct (Nat.eqb_spec k v); [fold v in Nv; lia|]. apply Sa; auto.
               ++ injection C1 as <-. rewrite C7 in Ll. do 3 eexists. split; [apply La; exact Ll|]. cbn [post]. exists f2, i2. split; [auto|]. split; [auto|]. split; [auto|]. split; [cbn [gh say nv] in N2; fold v in Nv; lia|]. split; [auto|].
                  left. exists a'. cbn [gh say cur] in C3. rewrite Cu in C3. injection C3 as <- <- _ <-. split; [exact C6|]. intros k Lk. rewrite C8; [|cbn [gh say nv]; fold v in Nv; lia|fold v in Nv; lia]. cbn [gh say vars]. destruct (Nat.eqb_spec k v); [fold v in Nv; lia|]. apply Sa; auto.
            -- destruct P3 as [-> O3]. cbn [dead] in Ll. do 3 eexists. split; [apply La; exact Ll|]. split; auto.
          * rewrite MP in Se. injection Em as <- <-. exists (S m1), (Unw f0), g1. split.
            -- rewrite tev_S. cbn [tstep]. rewrite Mf, E1. pose proof (search_lt _ _ _ _ Se). destruct (Nat.eqb_spec f0 (length ts)); [lia|reflexivity].
            -- cbn [post]. exists f0, i. repeat split; auto. left. eauto.
        + injection Em as <- <-. destruct P1 as [-> L1]. exists (S m1), (Dead (Uncaught e)), g1. split; [rewrite tev_S; cbn [tstep]; rewrite Mf, E1; reflexivity|]. split; auto. }
    clear E1 P1 Em. destruct B as (m2 & o2 & g2 & E2 & P2). rewrite tr_try. destruct f as [f|].
    + destruct om as [| |e|e].
      4: { injection H as <- <-. exists (S m2), o2, g2. split; auto. rewrite tev_S. cbn [tstep]. rewrite E2, (post_dead _ _ _ _ _ _ _ _ _ _ P2). reflexivity. }
      all: destruct (sev n P rs ts cx f) as [[[of lf] xf]|] eqn:Ef; [|discriminate].
      all: assert (Xf : xf = false) by (destruct of; injection H as _ _ X; repeat (apply orb_false_iff in X; destruct X as [X ?]); auto).
      all: subst xf; pose proof (post_dead _ _ _ _ _ _ _ _ _ _ P2) as D2; cbv beta iota in D2; pose proof (top_kept _ _ _ _ _ _ _ _ E2 D2) as T2.
      all: assert (G2 : good g2) by (cbn [post] in P2; first [destruct P2 as (_ & [_ _ _ _ Q]); exact Q|destruct P2 as (_ & _ & [_ _ _ _ Q]); exact Q|destruct P2 as (? & ? & _ & _ & _ & _ & Q & _); exact Q]).
      all: destruct (IH rs ts cx f false false Of Rs _ _ Ef g2 lx G2 ltac:(congruence) ltac:(intros Q; discriminate)) as (m3 & o3 & g3 & E3 & P3).
      all: assert (Hk : tev (S (max m2 m3)) tP ts lx (CHook (tr f) (inner2 hs b)) g = match o3 with Nrm | Ret _ => Some (o2, g3) | _ => Some (o3, g3) end) by (rewrite tev_S; cbn [tstep]; rewrite (tev_mono _ m2 (max m2 m3) ltac:(lia) _ _ _ _ _ E2), D2, (tev_mono _ m3 (max m2 m3) ltac:(lia) _ _ _ _ _ E3); destruct o3; reflexivity).
      all: destruct of as [| |e3|e3].
      all: try (cbn [post] in P3; destruct P3 as [Z _]; discriminate).
      all: try (destruct P3 as [-> K3]; injection H as <- <-; do 3 eexists; split; [exact Hk|]; eapply post_before; [exact I|exact P2|exact K3]).
      all: try (rewrite orb_true_r in H; discriminate).
      all: injection H as <- <-.
      * destruct P2 as [-> K2]. assert (Q : o3 <> Nrm /\ forall b, o3 <> Ret b) by (destruct P3 as (? & ? & _ & -> & _); split; discriminate). exists (S (max m2 m3)), o3, g3. split; [rewrite Hk; destruct Q; destruct o3; congruence|]. eapply post_after; [eapply pre_scope; eauto|exact K2|]. eapply post_false; [exact P3|discriminate].
      * destruct P2 as [-> K2]. pose proof P3 as [-> O3]. exists (S (max m2 m3)), (Dead (Uncaught e3)), g3. split; [exact Hk|]. split; auto. rewrite O3, (k_out _ _ _ K2), app_assoc; auto.
      * destruct P2 as (_ & -> & K2). assert (Q : o3 <> Nrm /\ forall b, o3 <> Ret b) by (destruct P3 as (? & ? & _ & -> & _); split; discriminate). exists (S (max m2 m3)), o3, g3. split; [rewrite Hk; destruct Q; destruct o3; congruence|]. eapply post_after; [eapply pre_scope; eauto|exact K2|]. eapply post_false; [exact P3|discriminate].
      * destruct P2 as (_ & -> & K2). pose proof P3 as [-> O3]. exists (S (max m2 m3)), (Dead (Uncaught e3)), g3. split; [exact Hk|]. split; auto. rewrite O3, (k_out _ _ _ K2), app_assoc; auto.
      * pose proof P3 as [-> O3]. exists (S (max m2 m3)), (Dead (Uncaught e3)), g3. split; [exact Hk|]. split; auto. destruct P2 as (? & ? & _ & _ & O2 & _). rewrite O3, O2, app_assoc; auto.
    + assert (Q : Some (om, lm, false) = Some (o, l, false)) by (destruct om; exact H). injection Q as <- <-. eauto.
  - destruct (IH _ _ _ _ _ _ (HP f) Rs _ _ H g None Go Tp ltac:(intros Q; discriminate)) as (m & o' & g' & E & P1). exists (S m), o', g'. split; [|eapply post_false; [exact P1|intros Z; discriminate]]. rewrite tev_S. cbn [tr tstep]. fold (tP f) in E. rewrite E.
    destruct o; cbn [post] in P1; [destruct P1 as [-> _]|destruct P1 as (Z & _); discriminate|destruct P1 as (? & ? & _ & -> & _)|destruct P1 as [-> _]]; reflexivity.
Qed.
End S.
