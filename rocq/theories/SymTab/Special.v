From Coq Require Import List Bool Arith Lia.
From Verif.SymTab Require Import Model Spec Proofs.
Import ListNotations.
(** The loops as filters *)
Section Scan.
Variable ex : nat.
Definition fU (e : nat * data) : bool := for_otype (snd e) ex && user (who (snd e)).
Definition fUC (e : nat * data) : bool := fU e && d_copy (who (snd e)).
Definition fGC (e : nat * data) : bool := for_otype (snd e) ex && negb (user (who (snd e))) && d_copy (who (snd e)).
Definition fGN (e : nat * data) : bool := for_otype (snd e) ex && negb (user (who (snd e))) && negb (d_copy (who (snd e))).
Lemma scan_copy_spec l : forall rm dl al, exists dl', scan_copy ex l rm dl al = (if existsb fUC l then None else Some (rm ++ map fst (filter fGC l), dl', al || existsb fU l)) /\ (al || existsb fU l = false -> dl' = dl ++ filter fGN l).
Proof.
  induction l as [|[m x] l IH]; intros rm dl al; cbn [scan_copy existsb filter].
  - exists dl. cbn [map]. now rewrite !app_nil_r, orb_false_r.
  - unfold fUC at 1, fU at 1 2 4, fGC at 1, fGN at 1. cbn [snd fst]. destruct (for_otype x ex); cbn [negb andb].
    + destruct (user (who x)); cbn [negb andb orb].
      * destruct (d_copy (who x)); cbn [orb]; [exists dl; split; [reflexivity|rewrite orb_true_r; discriminate]|]. destruct (IH rm dl true) as [dl' [E _]]. exists dl'. rewrite E, orb_true_r. split; [reflexivity|discriminate].
      * destruct (d_copy (who x)); cbn [negb andb orb].
        -- destruct (IH (rm ++ [m]) dl al) as [dl' [E F]]. exists dl'. rewrite E. cbn [map fst]. now rewrite <- app_assoc.
        -- destruct al; cbn [negb orb].
           ++ destruct (IH rm dl true) as [dl' [E F]]. exists dl'. now rewrite E.
           ++ destruct (IH rm (dl ++ [(m, x)]) false) as [dl' [E F]]. exists dl'. rewrite E. split; [reflexivity|]. intros G. rewrite (F G), <- app_assoc. reflexivity.
    + apply IH.
Qed.
Lemma scan_user_spec l : (forall e, In e l -> d_intr (who (snd e)) = false) -> forall dl, scan_user ex l dl = if existsb fU l then None else Some (dl ++ filter fGN l).
Proof.
  induction l as [|[m x] l IH]; intros N dl; cbn [scan_user existsb filter]; [now rewrite app_nil_r|]. assert (Nx := N _ (or_introl eq_refl)). cbn [snd] in Nx. specialize (IH (fun e I => N e (or_intror I))).
  unfold fU at 1, fGN at 1. cbn [snd fst]. destruct (for_otype x ex); cbn [negb andb orb]; [|apply IH]. destruct (user (who x)); cbn [negb andb orb]; [reflexivity|]. rewrite Nx. destruct (d_copy (who x)); cbn [negb]; [apply IH|]. rewrite IH, <- app_assoc. reflexivity.
Qed.
Lemma scan_gen_spec copy l : match scan_gen ex copy l with Some None => copy = true /\ existsb fUC l = true | Some (Some _) => copy = false /\ existsb fU l = true | None => if copy then existsb fUC l = false else existsb fU l = false end.
Proof.
  induction l as [|[m x] l IH]; cbn [scan_gen existsb]; [destruct copy; reflexivity|]. assert (EC : fUC (m, x) = for_otype x ex && user (who x) && d_copy (who x)) by reflexivity. assert (EU : fU (m, x) = for_otype x ex && user (who x)) by reflexivity. rewrite EC, EU. clear EC EU.
  destruct (for_otype x ex); cbn [negb andb orb]; [|exact IH]. destruct (user (who x)); cbn [negb andb orb]; [|exact IH].
  destruct copy; [|auto]. destruct (d_copy (who x)); cbn [orb]; [auto|]. destruct (scan_gen ex true l) as [[|]|]; intuition.
Qed.
End Scan.
(** Tables without repeated keys *)
Lemma mset_keys m x t : forall k, In k (map fst (mset m x t)) <-> k = m \/ In k (map fst t).
Proof.
  induction t as [|[j v] t IH]; intros k; cbn [mset map fst In]; [intuition|]. destruct (Nat.eqb_spec j m) as [->|N]; cbn [map fst In]; [intuition|]. rewrite IH. intuition.
Qed.
Lemma mset_nodup m x t : NoDup (map fst t) -> NoDup (map fst (mset m x t)).
Proof.
  induction t as [|[j v] t IH]; cbn [mset map fst]; intros H; [repeat constructor; auto|]. inversion H; subst. destruct (Nat.eqb_spec j m) as [->|N]; cbn [map fst]; constructor; auto. rewrite mset_keys. intuition.
Qed.
Lemma filter_nodup {A B} (g : A -> B) f l : NoDup (map g l) -> NoDup (map g (filter f l)).
Proof.
  induction l as [|a l IH]; cbn [filter map]; intros H; [constructor|]. inversion H; subst. destruct (f a); cbn [map]; [constructor|]; auto. intros I. apply in_map_iff in I as [b [E I]]. apply filter_In in I as [I _]. apply H2. rewrite <- E. now apply in_map.
Qed.
Lemma in_mfind t m x : NoDup (map fst t) -> In (m, x) t -> mfind m t = Some x.
Proof.
  induction t as [|[j v] t IH]; intros H I; [destruct I|]. cbn [map fst mfind] in *. inversion H; subst. destruct I as [I|I]; [injection I as -> ->; now rewrite Nat.eqb_refl|]. destruct (Nat.eqb_spec j m) as [->|N]; [|auto]. destruct H2. apply in_map_iff. exists (m, x). auto.
Qed.
Lemma mfind_filter f t m : NoDup (map fst t) -> mfind m (filter f t) = match mfind m t with Some x => if f (m, x) then Some x else None | None => None end.
Proof.
  induction t as [|[j v] t IH]; intros H; [reflexivity|]. cbn [map fst filter mfind] in *. inversion H; subst. destruct (Nat.eqb_spec j m) as [->|N].
  - destruct (f (m, v)); cbn [mfind]; [now rewrite Nat.eqb_refl|]. rewrite IH by auto. destruct (mfind m t) eqn:E; [|reflexivity]. destruct H2. apply mfind_in in E. apply in_map_iff. exists (m, d). auto.
  - destruct (f (j, v)); cbn [mfind]; [|auto]. destruct (Nat.eqb_spec j m); [congruence|auto].
Qed.
Lemma mfind_erase rm : forall t m, mfind m (fold_left (fun t m => merase m t) rm t) = if existsb (Nat.eqb m) rm then None else mfind m t.
Proof.
  induction rm as [|r rm IH]; intros t m; cbn [fold_left existsb]; [reflexivity|]. rewrite IH. destruct (existsb (Nat.eqb m) rm); [now rewrite orb_true_r|]. rewrite orb_false_r. unfold merase. clear.
  induction t as [|[j v] t IH]; cbn [filter mfind]; [destruct (m =? r); reflexivity|]. cbn [fst]. destruct (Nat.eqb_spec j r) as [->|N]; cbn [negb mfind].
  - rewrite IH. destruct (Nat.eqb_spec m r) as [E|M]; [reflexivity|]. destruct (Nat.eqb_spec r m); [congruence|reflexivity].
  - destruct (Nat.eqb_spec j m) as [->|M]; [|exact IH]. destruct (Nat.eqb_spec m r); [congruence|reflexivity].
Qed.
Lemma erase_nodup rm : forall t, NoDup (map fst t) -> NoDup (map fst (fold_left (fun t m => merase m t) rm t)).
Proof. induction rm as [|r rm IH]; intros t H; [exact H|]. cbn [fold_left]. apply IH. now apply filter_nodup. Qed.
Lemma mfind_delete w dl : forall t m, NoDup (map fst dl) -> mfind m (delete_all w dl t) = match mfind m dl with Some x => Some (with_deleter x w) | None => mfind m t end.
Proof.
  unfold delete_all. induction dl as [|[j v] dl IH]; intros t m H; [reflexivity|]. cbn [fold_left fst snd mfind map] in *. inversion H; subst. rewrite IH, mfind_mset by auto. destruct (Nat.eqb_spec j m) as [->|N].
  - rewrite Nat.eqb_refl. destruct (mfind m dl) eqn:E; [|reflexivity]. destruct H2. apply mfind_in in E. apply in_map_iff. exists (m, d). auto.
  - destruct (mfind m dl); [reflexivity|]. destruct (Nat.eqb_spec m j); [congruence|reflexivity].
Qed.
Lemma delete_nodup w dl : forall t, NoDup (map fst t) -> NoDup (map fst (delete_all w dl t)).
Proof. unfold delete_all. induction dl as [|e dl IH]; intros t H; [exact H|]. cbn [fold_left]. apply IH. now apply mset_nodup. Qed.
(** The functions of one type *)
Section One.
Variables kd ok sc : nat.
Notation K := (KSp kd ok).
Variable L : list decl.
Notation wf := (family kd ok L).
Record inv (mt : mtable) (l : list decl) : Prop := Inv {
  i_sub : incl l L;
  i_nd : NoDup (map fst mt);
  i_in : forall m x, mfind m mt = Some x -> In (who x) l /\ m = d_mangle (who x) /\ dscope x = sc;
  i_user : forall m x, mfind m mt = Some x -> d_over (who x) = false -> deleter x = None;
  i_has : forall d, In d l -> d_over d = false -> exists x, mfind (d_mangle d) mt = Some x /\ who x = d;
  i_gc : forall m x, mfind m mt = Some x -> d_over (who x) = true -> d_copy (who x) = true -> deleter x = None /\ forall u, In u l -> d_over u = false -> exact u = exact (who x) -> d_copy u = false;
  i_gn : forall m x, mfind m mt = Some x -> d_over (who x) = true -> d_copy (who x) = false -> (deleter x = None <-> forall u, In u l -> d_over u = false -> exact u <> exact (who x));
  i_call : forall d, d_over d = true -> callable l d -> exists x, mfind (d_mangle d) mt = Some x /\ who x = d }.
Lemma inv_nil mt : mt = [] -> inv mt [].
Proof. intros ->. constructor; cbn; try discriminate; try contradiction; [intros ? []|constructor|]. intros d _ [[] _]. Qed.
Lemma inv_available mt l d : inv mt l -> (exists x, In x (map snd mt) /\ who x = d /\ deleter x = None) <-> callable l d.
Proof.
  intros H. split.
  - intros [x [I [<- Dx]]]. apply in_map_iff in I as [[m x'] [E I]]. cbn [snd] in E. subst x'. apply in_mfind in I; [|apply H]. destruct (i_in _ _ H _ _ I) as [J _]. split; [exact J|]. destruct (d_over (who x)) eqn:O; [right|auto]. destruct (d_copy (who x)) eqn:C.
    + apply (i_gc _ _ H _ _ I O C).
    + apply (i_gn _ _ H _ _ I O C). exact Dx.
  - intros C. assert (E : exists x, mfind (d_mangle d) mt = Some x /\ who x = d).
    { destruct (d_over d) eqn:O; [now apply (i_call _ _ H)|]. apply (i_has _ _ H); auto. apply C. }
    destruct E as [x [E W]]. exists x. split; [apply in_map_iff; exists (d_mangle d, x); split; [reflexivity|now apply mfind_in]|]. split; [exact W|]. subst d. destruct C as [I C]. destruct (d_over (who x)) eqn:O; [|eapply i_user; eauto]. destruct C as [C|C]; [discriminate|]. destruct (d_copy (who x)) eqn:Cp.
    + now apply (i_gc _ _ H _ _ E O Cp).
    + now apply (i_gn _ _ H _ _ E O Cp).
Qed.
(** the effect of a function of the user *)
Definition user_upd (mt mt' : mtable) (d : decl) : Prop :=
  NoDup (map fst mt') /\ mfind (d_mangle d) mt' = Some (Data d None sc) /\ forall m, m <> d_mangle d ->
  match mfind m mt with
  | None => mfind m mt' = None
  | Some x => if d_over (who x) && (exact (who x) =? exact d) then
                if d_copy (who x) then mfind m mt' = if d_copy d then None else Some x
                else exists w, mfind m mt' = Some (with_deleter x w)
              else mfind m mt' = Some x
  end.
Lemma callable_user l d e : callable (d :: l) e -> d_over e = true -> d_over d = false -> callable l e /\ ~ (exact e = exact d /\ (d_copy e = true -> d_copy d = true)).
Proof.
  intros [[<-|I] C] O Od; [congruence|]. destruct C as [C|C]; [congruence|]. split.
  - split; [exact I|]. right. destruct (d_copy e); intros u J; apply C; now right.
  - intros [E F]. destruct (d_copy e).
    + specialize (C d (or_introl eq_refl) Od (eq_sym E)). rewrite F in C by reflexivity. discriminate.
    + apply (C d (or_introl eq_refl) Od). now symmetry.
Qed.
Lemma inv_user mt mt' l d : wf -> inv mt l -> In d L -> ~ In d l -> d_over d = false -> user_upd mt mt' d -> inv mt' (d :: l).
Proof.
  intros W H Id Nd Od [ND [Hd Hm]].
  assert (Old : forall m x, m <> d_mangle d -> mfind m mt' = Some x -> exists y, mfind m mt = Some y /\ who x = who y /\ dscope x = dscope y /\
     (if d_over (who y) && (exact (who y) =? exact d) then if d_copy (who y) then d_copy d = false /\ x = y else deleter x <> None else x = y)).
  { intros m x N E. specialize (Hm m N). destruct (mfind m mt) as [y|]; [|congruence]. exists y. split; [reflexivity|]. destruct (d_over (who y) && (exact (who y) =? exact d)).
    - destruct (d_copy (who y)).
      + rewrite Hm in E. destruct (d_copy d); [discriminate|]. injection E as <-. auto.
      + destruct Hm as [w Hw]. rewrite Hw in E. injection E as <-. cbn. repeat split; auto. discriminate.
    - rewrite Hm in E. injection E as <-. auto. }
  constructor.
  - intros e [<-|I]; [exact Id|now apply (i_sub _ _ H)].
  - exact ND.
  - intros m x E. destruct (Nat.eq_dec m (d_mangle d)) as [->|N]; [rewrite Hd in E; injection E as <-; cbn; auto|]. destruct (Old _ _ N E) as [y [Ey [-> [-> _]]]]. destruct (i_in _ _ H _ _ Ey) as [A [B C]]. cbn [In]. auto.
  - intros m x E O. destruct (Nat.eq_dec m (d_mangle d)) as [->|N]; [rewrite Hd in E; injection E as <-; reflexivity|]. destruct (Old _ _ N E) as [y [Ey [Wy [_ Z]]]]. rewrite Wy in O. rewrite O in Z. cbn [andb] in Z. subst y. eapply (i_user _ _ H); eauto.
  - intros e [<-|I] O; [eexists; split; [exact Hd|reflexivity]|]. destruct (i_has _ _ H e I O) as [x [E <-]]. destruct (Nat.eq_dec (d_mangle (who x)) (d_mangle d)) as [M|N].
    + destruct Nd. rewrite (f_inj _ _ _ W d (who x)); auto; [apply (i_sub _ _ H); auto|congruence].
    + specialize (Hm _ N). rewrite E, O in Hm. cbn [andb] in Hm. eauto.
  - intros m x E O C. destruct (Nat.eq_dec m (d_mangle d)) as [->|N]; [rewrite Hd in E; injection E as <-; cbn in O; congruence|]. destruct (Old _ _ N E) as [y [Ey [Wy [_ Z]]]]. rewrite Wy in O, C. rewrite Wy. destruct (i_gc _ _ H _ _ Ey O C) as [Dy G]. rewrite O, C in Z. cbn [andb] in Z. destruct (Nat.eqb_spec (exact (who y)) (exact d)) as [X|X].
    + destruct Z as [Cd ->]. split; [exact Dy|]. intros u [<-|I]; auto.
    + subst y. split; [exact Dy|]. intros u [<-|I]; auto. intros _ X2. congruence.
  - intros m x E O C. destruct (Nat.eq_dec m (d_mangle d)) as [->|N]; [rewrite Hd in E; injection E as <-; cbn in O; congruence|]. destruct (Old _ _ N E) as [y [Ey [Wy [_ Z]]]]. rewrite Wy in O, C. rewrite Wy. pose proof (i_gn _ _ H _ _ Ey O C) as G. rewrite O, C in Z. cbn [andb] in Z. destruct (Nat.eqb_spec (exact (who y)) (exact d)) as [X|X].
    + split; [contradiction|]. intros F. destruct (F d (or_introl eq_refl) Od). congruence.
    + subst y. rewrite G. split; intros F u; [intros [<-|I]; auto; intros _; congruence|intros I; apply F; now right].
  - intros e O C. destruct (callable_user _ _ _ C O Od) as [C' X]. destruct (i_call _ _ H e O C') as [x [E <-]]. destruct (Nat.eq_dec (d_mangle (who x)) (d_mangle d)) as [M|N].
    + destruct (f_same _ _ _ W (who x) d) as [A B]; auto; [apply (i_sub _ _ H); apply C'|]. destruct X. split; [exact A|]. now rewrite B.
    + specialize (Hm _ N). rewrite E, O in Hm. cbn [andb] in Hm. destruct (Nat.eqb_spec (exact (who x)) (exact d)) as [Y|Y]; [|eauto]. destruct (d_copy (who x)) eqn:Cx.
      * rewrite Hm. destruct (d_copy d); [destruct X; auto|eauto].
      * destruct X. split; [exact Y|discriminate].
Qed.
Lemma callable_gen l d e : d_over d = true -> callable (d :: l) e -> e = d \/ callable l e.
Proof.
  intros Od [[<-|I] C]; [auto|right]. split; [exact I|]. destruct C as [C|C]; [auto|right]. destruct (d_copy e); intros u J; apply C; now right.
Qed.
Lemma inv_gen_skip mt l d : inv mt l -> In d L -> d_over d = true -> ~ callable (d :: l) d -> inv mt (d :: l).
Proof.
  intros H Id Od Nc. constructor.
  - intros e [<-|I]; [exact Id|now apply (i_sub _ _ H)].
  - apply H.
  - intros m x E. destruct (i_in _ _ H _ _ E) as [A B]. cbn [In]. auto.
  - apply H.
  - intros e [<-|I] O; [congruence|now apply (i_has _ _ H)].
  - intros m x E O C. destruct (i_gc _ _ H _ _ E O C) as [A B]. split; [exact A|]. intros u [<-|I]; [congruence|auto].
  - intros m x E O C. rewrite (i_gn _ _ H _ _ E O C). split; intros F u; [intros [<-|I]; [congruence|auto]|intros I; apply F; now right].
  - intros e O C. destruct (callable_gen _ _ _ Od C) as [->|C']; [contradiction|now apply (i_call _ _ H)].
Qed.
Lemma inv_gen_add mt l d del : inv mt l -> In d L -> d_over d = true -> mfind (d_mangle d) mt = None ->
  (if d_copy d then del = None /\ (forall u, In u l -> d_over u = false -> exact u = exact d -> d_copy u = false) else del = None <-> (forall u, In u l -> d_over u = false -> exact u <> exact d)) ->
  inv (mset (d_mangle d) (Data d del sc) mt) (d :: l).
Proof.
  intros H Id Od Nf Hd. set (f := mfind_mset (d_mangle d) (Data d del sc) mt).
  constructor.
  - intros e [<-|I]; [exact Id|now apply (i_sub _ _ H)].
  - apply mset_nodup, H.
  - intros m x. rewrite f. destruct (Nat.eqb_spec m (d_mangle d)) as [->|N]; [intros [= <-]; cbn; auto|]. intros E. destruct (i_in _ _ H _ _ E) as [A B]. cbn [In]. auto.
  - intros m x. rewrite f. destruct (Nat.eqb_spec m (d_mangle d)) as [->|N]; [intros [= <-]; cbn; congruence|apply (i_user _ _ H)].
  - intros e [<-|I] O; [congruence|]. destruct (i_has _ _ H e I O) as [x [E X]]. exists x. split; [|exact X]. rewrite f. destruct (Nat.eqb_spec (d_mangle e) (d_mangle d)) as [M|N]; [congruence|exact E].
  - intros m x. rewrite f. destruct (Nat.eqb_spec m (d_mangle d)) as [->|N].
    + intros [= <-] _ C. cbn in *. rewrite C in Hd. destruct Hd as [-> F]. split; [reflexivity|]. intros u [<-|I]; [congruence|auto].
    + intros E O C. destruct (i_gc _ _ H _ _ E O C) as [A B]. split; [exact A|]. intros u [<-|I]; [congruence|auto].
  - intros m x. rewrite f. destruct (Nat.eqb_spec m (d_mangle d)) as [->|N].
    + intros [= <-] _ C. cbn in *. rewrite C in Hd. rewrite Hd. split; intros F u; [intros [<-|I]; [congruence|auto]|intros I; apply F; now right].
    + intros E O C. rewrite (i_gn _ _ H _ _ E O C). split; intros F u; [intros [<-|I]; [congruence|auto]|intros I; apply F; now right].
  - intros e O C. destruct (callable_gen _ _ _ Od C) as [->|C']; [eexists; rewrite f, Nat.eqb_refl; split; reflexivity|]. destruct (i_call _ _ H e O C') as [x [E X]]. exists x. split; [|exact X]. rewrite f. destruct (Nat.eqb_spec (d_mangle e) (d_mangle d)) as [M|N]; [congruence|exact E].
Qed.
(** what the loops find *)
Lemma for_otype_in mt l m x ex : wf -> inv mt l -> mfind m mt = Some x -> for_otype x ex = (exact (who x) =? ex).
Proof. intros W H E. destruct (i_in _ _ H _ _ E) as [I _]. destruct (f_spec _ _ _ W _ (i_sub _ _ H _ I)) as [A [B _]]. unfold for_otype. now rewrite B, A. Qed.
Lemma exists_user mt l ex : wf -> inv mt l -> existsb (fU ex) mt = true <-> exists u, In u l /\ d_over u = false /\ exact u = ex.
Proof.
  intros W H. split.
  - intros E. apply existsb_exists in E as [[m x] [I E]]. apply in_mfind in I; [|apply H]. unfold fU in E. cbn [snd] in E. rewrite (for_otype_in _ _ _ _ ex W H I) in E. apply andb_true_iff in E as [A B]. apply Nat.eqb_eq in A. unfold user in B. apply negb_true_iff in B. exists (who x). split; [apply (i_in _ _ H _ _ I)|auto].
  - intros [u [I [O E]]]. destruct (i_has _ _ H u I O) as [x [F <-]]. apply existsb_exists. exists (d_mangle (who x), x). split; [now apply mfind_in|]. unfold fU, user. cbn [snd]. rewrite (for_otype_in _ _ _ _ ex W H F), E, Nat.eqb_refl, O. reflexivity.
Qed.
Lemma exists_ucopy mt l ex : wf -> inv mt l -> existsb (fUC ex) mt = true <-> exists u, In u l /\ d_over u = false /\ exact u = ex /\ d_copy u = true.
Proof.
  intros W H. split.
  - intros E. apply existsb_exists in E as [[m x] [I E]]. apply in_mfind in I; [|apply H]. unfold fUC, fU in E. cbn [snd] in E. rewrite (for_otype_in _ _ _ _ ex W H I) in E. apply andb_true_iff in E as [E C]. apply andb_true_iff in E as [A B]. apply Nat.eqb_eq in A. unfold user in B. apply negb_true_iff in B. exists (who x). split; [apply (i_in _ _ H _ _ I)|auto].
  - intros [u [I [O [E C]]]]. destruct (i_has _ _ H u I O) as [x [F <-]]. apply existsb_exists. exists (d_mangle (who x), x). split; [now apply mfind_in|]. unfold fUC, fU, user. cbn [snd]. rewrite (for_otype_in _ _ _ _ ex W H F), E, Nat.eqb_refl, O, C. reflexivity.
Qed.
Lemma deleted_again x : deleter x <> None -> exists w, x = with_deleter x w.
Proof. destruct x as [w [v|] s]; [|intros []; reflexivity]. exists v. reflexivity. Qed.
Lemma in_existsb m l : existsb (Nat.eqb m) l = true <-> In m l.
Proof. rewrite existsb_exists. split; [intros [x [I E]]; apply Nat.eqb_eq in E; now subst x|intros I; exists m; rewrite Nat.eqb_refl; auto]. Qed.
Lemma remove_user mt l d : wf -> inv mt l -> In d L -> d_over d = false -> exists x mt', remove_special (Data d None sc) mt = Some (x, mt') /\ user_upd mt (mset (d_mangle d) x mt') d.
Proof.
  intros W H Id Od. destruct (f_spec _ _ _ W d Id) as [Sp [Fn _]]. unfold remove_special. cbn [who]. rewrite Sp, Fn. unfold user. rewrite Od. cbn [negb andb].
  assert (Basic : forall mt', NoDup (map fst mt') -> (forall m, m <> d_mangle d -> match mfind m mt with
    | None => mfind m mt' = None
    | Some x => if d_over (who x) && (exact (who x) =? exact d) then if d_copy (who x) then mfind m mt' = if d_copy d then None else Some x else exists w, mfind m mt' = Some (with_deleter x w) else mfind m mt' = Some x end) ->
    user_upd mt (mset (d_mangle d) (Data d None sc) mt') d).
  { intros mt' ND G. split; [now apply mset_nodup|]. split; [rewrite mfind_mset, Nat.eqb_refl; reflexivity|]. intros m N. specialize (G m N). rewrite mfind_mset. destruct (Nat.eqb_spec m (d_mangle d)); [contradiction|exact G]. }
  assert (UserGN : forall m x, existsb (fU (exact d)) mt = true -> mfind m mt = Some x -> d_over (who x) && (exact (who x) =? exact d) = true -> d_copy (who x) = false -> exists w, x = with_deleter x w).
  { intros m x X E O C. apply andb_true_iff in O as [O Ex]. apply Nat.eqb_eq in Ex. apply deleted_again. rewrite (i_gn _ _ H _ _ E O C). intros F. apply (exists_user mt l _ W H) in X as [u [A [B D]]]. apply (F u A B). congruence. }
  assert (Fn' : forall m x, mfind m mt = Some x -> for_otype x (exact d) = (exact (who x) =? exact d)) by (intros m x; apply (for_otype_in mt l); auto).
  destruct (d_copy d) eqn:Cd.
  - destruct (scan_copy_spec (exact d) mt [] [] false) as [dl [E Dl]]. rewrite E. cbn [orb app] in *. destruct (existsb (fUC (exact d)) mt) eqn:X.
    + eexists. eexists. split; [reflexivity|]. apply Basic; [apply H|]. intros m N. destruct (mfind m mt) as [x|] eqn:F; [|reflexivity]. destruct (d_over (who x) && (exact (who x) =? exact d)) eqn:G; [|reflexivity]. destruct (d_copy (who x)) eqn:C.
      * exfalso. apply andb_true_iff in G as [O Ex]. apply Nat.eqb_eq in Ex. apply (exists_ucopy mt l _ W H) in X as [u [A [B [D Z]]]]. destruct (i_gc _ _ H _ _ F O C) as [_ Q]. rewrite (Q u A B) in Z; congruence.
      * destruct (UserGN m x) as [w Ew]; auto. { apply existsb_exists in X as [e [I X]]. apply existsb_exists. exists e. split; [exact I|]. unfold fUC in X. now apply andb_true_iff in X. } exists w. now rewrite <- Ew.
    + eexists. eexists. split; [reflexivity|]. set (er := fold_left (fun t m => merase m t) (map fst (filter (fGC (exact d)) mt)) mt).
      assert (Er : forall m, mfind m er = match mfind m mt with Some x => if d_over (who x) && (exact (who x) =? exact d) && d_copy (who x) then None else Some x | None => None end).
      { intros m. unfold er. rewrite mfind_erase. destruct (mfind m mt) as [x|] eqn:F; [|destruct (existsb (Nat.eqb m) (map fst (filter (fGC (exact d)) mt))); reflexivity].
        assert (Q : existsb (Nat.eqb m) (map fst (filter (fGC (exact d)) mt)) = d_over (who x) && (exact (who x) =? exact d) && d_copy (who x)); [|now rewrite Q].
        apply eq_true_iff_eq. rewrite in_existsb, in_map_iff. split.
        - intros [[m' y] [Em I]]. cbn [fst] in Em. subst m'. apply filter_In in I as [I P]. apply in_mfind in I; [|apply H]. rewrite F in I. injection I as <-. unfold fGC, user in P. cbn [snd] in P. rewrite (Fn' _ _ F), negb_involutive in P. rewrite (andb_comm (d_over (who x))). exact P.
        - intros P. exists (m, x). split; [reflexivity|]. apply filter_In. split; [now apply mfind_in|]. unfold fGC, user. cbn [snd]. rewrite (Fn' _ _ F), negb_involutive, (andb_comm (exact (who x) =? exact d)). exact P. }
      assert (Nd : NoDup (map fst er)) by (apply erase_nodup, H). destruct (existsb (fU (exact d)) mt) eqn:Y; cbn [negb].
      * apply Basic; [exact Nd|]. intros m N. rewrite Er. destruct (mfind m mt) as [x|] eqn:F; [|reflexivity]. destruct (d_over (who x) && (exact (who x) =? exact d)) eqn:G; cbn [andb]; [|reflexivity]. destruct (d_copy (who x)) eqn:C; [reflexivity|]. destruct (UserGN m x) as [w Ew]; auto. exists w. now rewrite <- Ew.
      * rewrite (Dl eq_refl). apply Basic; [now apply delete_nodup|]. intros m N. rewrite mfind_delete by (apply filter_nodup, H). rewrite mfind_filter by apply H. rewrite Er. destruct (mfind m mt) as [x|] eqn:F; [|reflexivity]. unfold fGN, user. cbn [snd]. rewrite (Fn' _ _ F), negb_involutive. rewrite (andb_comm (exact (who x) =? exact d)).
        destruct (d_over (who x) && (exact (who x) =? exact d)) eqn:G; cbn [andb]; [|reflexivity]. destruct (d_copy (who x)) eqn:C; cbn [negb]; [reflexivity|]. eauto.
  - rewrite scan_user_spec. 2:{ intros [m x] I. apply in_mfind in I; [|apply H]. cbn [snd]. apply (f_spec _ _ _ W). apply (i_sub _ _ H). apply (i_in _ _ H _ _ I). }
    cbn [app]. destruct (existsb (fU (exact d)) mt) eqn:Y.
    + eexists. eexists. split; [reflexivity|]. apply Basic; [apply H|]. intros m N. destruct (mfind m mt) as [x|] eqn:F; [|reflexivity]. destruct (d_over (who x) && (exact (who x) =? exact d)) eqn:G; [|reflexivity]. destruct (d_copy (who x)) eqn:C; [reflexivity|]. destruct (UserGN m x) as [w Ew]; auto. exists w. now rewrite <- Ew.
    + eexists. eexists. split; [reflexivity|]. apply Basic; [apply delete_nodup, H|]. intros m N. rewrite mfind_delete by (apply filter_nodup, H). rewrite mfind_filter by apply H. destruct (mfind m mt) as [x|] eqn:F; [|reflexivity]. unfold fGN, user. cbn [snd]. rewrite (Fn' _ _ F), negb_involutive. rewrite (andb_comm (exact (who x) =? exact d)).
      destruct (d_over (who x) && (exact (who x) =? exact d)) eqn:G; cbn [andb]; [|reflexivity]. destruct (d_copy (who x)) eqn:C; cbn [negb]; [reflexivity|]. eauto.
Qed.
Lemma add_inv ign compat t l d t' : wf -> inv (ids t K) l -> no_c t -> In d L -> ~ In d l -> (add_id ign compat d None None t sc = Same /\ t' = t \/ add_id ign compat d None None t sc = Upd t') -> inv (ids t' K) (d :: l) /\ no_c t'.
Proof.
  intros W H Nc Id Nd. destruct (f_spec _ _ _ W d Id) as [Sp [Fn [Intr [Nm Ld]]]]. unfold add_id, key_of. rewrite Sp. destruct (Nat.eqb_spec (d_name d) 0); [contradiction|].
  assert (Hc : has_cdecl (d_load d) t (d_name d) (d_mangle d) sc = false). { unfold has_cdecl. apply not_true_is_false. intros X. apply existsb_exists in X as [e [I X]]. rewrite (Nc _ _ I) in X. cbn [negb] in X. rewrite andb_false_r in X. discriminate. }
  rewrite Hc, andb_false_r.
  assert (Set_ : forall mt, ids (set_ids t K mt) K = mt /\ no_c (set_ids t K mt)). { intros mt. split; [cbn [set_ids ids]; now rewrite key_eqb_refl|]. intros j e. cbn [set_ids ids key_eqb]. apply Nc. }
  assert (Add : (d_over d = true -> mfind (d_mangle d) (ids t K) = None) -> forall r, match remove_special (Data d None sc) (ids t K) with None => Upd t | Some (x, mt') => Upd (set_ids t K (mset (d_mangle d) x mt')) end = Upd r -> inv (ids r K) (d :: l) /\ no_c r).
  { intros Nf r. destruct (d_over d) eqn:Od.
    - specialize (Nf eq_refl). unfold remove_special. cbn [who dscope]. rewrite Sp, Fn. unfold user. rewrite Od, Intr. cbn [negb andb]. pose proof (scan_gen_spec (exact d) (d_copy d) (ids t K)) as G. destruct (scan_gen (exact d) (d_copy d) (ids t K)) as [[w|]|].
      + destruct G as [C G]. intros [= <-]. destruct (Set_ (mset (d_mangle d) (Data d (Some w) sc) (ids t K))) as [-> N2]. split; [|exact N2]. apply inv_gen_add; auto. rewrite C. split; [discriminate|]. intros F. apply (exists_user _ l _ W H) in G as [u [A [B D]]]. destruct (F u A B D).
      + destruct G as [C G]. intros [= <-]. split; [|exact Nc]. apply inv_gen_skip; auto. intros [_ [X|X]]; [congruence|]. rewrite C in X. apply (exists_ucopy _ l _ W H) in G as [u [A [B [D E]]]]. rewrite (X u (or_intror A) B D) in E. discriminate.
      + intros [= <-]. destruct (Set_ (mset (d_mangle d) (Data d None sc) (ids t K))) as [-> N2]. split; [|exact N2]. apply inv_gen_add; auto. destruct (d_copy d) eqn:C.
        * split; [reflexivity|]. intros u A B D. destruct (d_copy u) eqn:E; [|reflexivity]. assert (X : existsb (fUC (exact d)) (ids t K) = true) by (apply (exists_ucopy _ l _ W H); eauto). congruence.
        * split; [|reflexivity]. intros _ u A B D. assert (X : existsb (fU (exact d)) (ids t K) = true) by (apply (exists_user _ l _ W H); eauto). congruence.
    - destruct (remove_user (ids t K) l d W H Id Od) as [x [mt' [-> U]]]. intros [= <-]. destruct (Set_ (mset (d_mangle d) x mt')) as [-> N2]. split; [|exact N2]. eapply inv_user; eauto. }
  destruct (mfind (d_mangle d) (ids t K)) as [e|] eqn:F.
  - destruct (i_in _ _ H _ _ F) as [Ie [Me Se]]. rewrite Se, Nat.eqb_refl. unfold id_conflicts. destruct (d_over (who e)) eqn:Oe.
    + assert (Od : d_over d = false). { destruct (d_over d) eqn:Od; [|reflexivity]. destruct Nd. rewrite (f_inj _ _ _ W d (who e)); auto; [apply (i_sub _ _ H); auto|congruence]. }
      intros [[X _]|X]; [|apply Add; [congruence|exact X]]. exfalso. destruct (remove_special (Data d None sc) (ids t K)) as [[? ?]|]; discriminate.
    + assert (Od : d_over d = true). { destruct (d_over d) eqn:Od; [reflexivity|]. destruct Nd. rewrite (f_inj _ _ _ W d (who e)); auto; [apply (i_sub _ _ H); auto|congruence]. }
      assert (Skip : inv (ids t K) (d :: l)).
      { apply inv_gen_skip; auto. destruct (f_same _ _ _ W d (who e)) as [A B]; auto; [apply (i_sub _ _ H); auto|]. intros [_ [X|X]]; [congruence|]. destruct (d_copy d).
        - rewrite (X (who e) (or_intror Ie) Oe) in B by auto. discriminate.
        - apply (X (who e) (or_intror Ie) Oe). auto. }
      destruct (f_spec _ _ _ W _ (i_sub _ _ H _ Ie)) as [_ [_ [_ [_ ->]]]]. cbn [orb]. rewrite (i_user _ _ H _ _ F Oe). destruct (d_def d && d_def (who e)); [destruct ign|]; intros [[X Et]|X]; try discriminate; subst t'; auto.
  - intros [[X _]|X]; [|apply Add; auto]. exfalso. destruct (remove_special (Data d None sc) (ids t K)) as [[? ?]|]; discriminate.
Qed.
End One.
Lemma adds_inv ign compat kd ok L : family kd ok L -> forall l2 l1 s s', inv (scope s) L (ids (tables s) (KSp kd ok)) l1 -> no_c (tables s) -> incl l2 L -> NoDup l2 -> (forall d, In d l2 -> ~ In d l1) ->
  run ign compat (map (fun d => AddId d None) l2) s = Some s' -> inv (scope s) L (ids (tables s') (KSp kd ok)) (rev l2 ++ l1).
Proof.
  intros W. induction l2 as [|d l2 IH]; intros l1 s s' H Nc Sub ND Dj; cbn [map run]; [intros [= <-]; exact H|]. cbn [step change].
  inversion ND; subst. cbn [rev]. rewrite <- app_assoc. cbn [app].
  assert (Go : forall s1, (add_id ign compat d None None (tables s) (scope s) = Same /\ tables s1 = tables s \/ add_id ign compat d None None (tables s) (scope s) = Upd (tables s1)) -> scope s1 = scope s -> run ign compat (map (fun d => AddId d None) l2) s1 = Some s' -> inv (scope s) L (ids (tables s') (KSp kd ok)) (rev l2 ++ d :: l1)).
  { intros s1 E Es R. destruct (add_inv kd ok (scope s) L ign compat (tables s) l1 d (tables s1) W H Nc (Sub _ (or_introl eq_refl)) (Dj d (or_introl eq_refl)) E) as [A B]. rewrite <- Es in *. eapply IH; eauto; [intros e I; apply Sub; now right|]. intros e I [<-|J]; [contradiction|]. apply (Dj e (or_intror I) J). }
  destruct (add_id ign compat d None None (tables s) (scope s)) as [| |t] eqn:E; [|discriminate|]; intros R.
  - apply (Go s); auto.
  - apply (Go (ST t (scope (lazy_init s)) (rep (lazy_init s)) (prev (lazy_init s)))); auto. unfold lazy_init. cbn [scope]. destruct (rep s =? scope s); reflexivity.
Qed.
Lemma callable_ext l l' d : (forall x, In x l <-> In x l') -> callable l d <-> callable l' d.
Proof.
  intros E. unfold callable. rewrite E. apply and_iff_compat_l. apply or_iff_compat_l. destruct (d_copy d); split; intros F u I; apply F; apply E; auto.
Qed.
Lemma adds_available ign compat kd ok l s s' d : family kd ok l -> NoDup l -> ids (tables s) (KSp kd ok) = [] -> no_c (tables s) -> run ign compat (map (fun d => AddId d None) l) s = Some s' -> available (tables s') (KSp kd ok) d <-> callable l d.
Proof.
  intros W ND E Nc R. pose proof (adds_inv ign compat kd ok l W l [] s s' (inv_nil _ _ _ E) Nc (fun x I => I) ND (fun d _ F => F) R) as H. rewrite app_nil_r in H. unfold available. rewrite (inv_available _ _ _ _ d H). apply callable_ext. intros x. symmetry. apply in_rev.
Qed.
