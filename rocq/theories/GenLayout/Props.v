(** C96: generic code and the code for an instance agree on the layout of generic types *)
From Coq Require Import ZArith List Bool Lia ZifyBool.
From Verif.GenLayout Require Import Model Spec Proofs.
Import ListNotations.
Open Scope Z_scope.
(** size and alignment computed from the parameters of generic code are those of the type with its parameters replaced; f: the arguments *)
Theorem C96_layout : forall f t, wf t -> (forall i, wf (f i)) -> small (inst f t) -> solid (inst f t) -> dyn (fun i => c_layout (f i)) t = c_layout (inst f t).
Proof. exact dyn_ok. Qed.
Print Assumptions C96_layout.
Theorem C96_offsets : forall f ts, wf (Struct ts) -> (forall i, wf (f i)) -> small (inst f (Struct ts)) -> solid (inst f (Struct ts)) -> dyn_offsets (fun i => c_layout (f i)) ts = place 0 (map c_layout (map (inst f) ts)).
Proof. exact offsets_ok. Qed.
Print Assumptions C96_offsets.
(** the layout function of a structure for any sizes and alignments of its members: one offset for each member, aligned for it, at the least place after the members before; all inside the structure; the size is the least multiple of the alignment, the alignment the least that suits all members *)
Theorem C96_struct : forall ms, Forall (fun m => 0 <= fst m /\ pow2 (snd m)) ms -> up (ends 0 ms) (widest ms) < two64 ->
  exists size align offs, struct_body 0 ms 0 1 [] = (size, align, offs) /\ length offs = length ms /\
    (forall i m, nth_error ms i = Some m -> (snd m | nth i offs 0) /\ (snd m | align) /\ 0 <= nth i offs 0 /\ nth i offs 0 + fst m <= size) /\
    (forall i j m, (i < j < length ms)%nat -> nth_error ms i = Some m -> nth i offs 0 + fst m <= nth j offs 0) /\
    (forall i m m', nth_error ms i = Some m -> nth_error ms (S i) = Some m' -> forall x, nth i offs 0 + fst m <= x -> (snd m' | x) -> nth (S i) offs 0 <= x) /\
    (ms <> [] -> nth 0 offs 0 = 0) /\ (align | size) /\
    (forall x, 0 < x -> (forall m, List.In m ms -> (snd m | x)) -> align <= x) /\
    (forall x, 0 <= x -> (align | x) -> (forall i m, nth_error ms i = Some m -> nth i offs 0 + fst m <= x) -> size <= x).
Proof.
  intros ms F U. exists (up (ends 0 ms) (widest ms)), (widest ms), (place 0 ms). assert (W := widest_pow2 ms F). assert (WP := pow2_pos _ W). destruct (up_spec (ends 0 ms) (widest ms) ltac:(lia)) as [US UD].
  assert (WD := widest_div ms F). rewrite Forall_forall in WD.
  assert (L : forall e, length (place e ms) = length ms) by (clear; induction ms as [|[s a] ms IH]; intros e; cbn [place length]; auto).
  assert (A : forall ms, Forall mok ms -> forall e i m, nth_error ms i = Some m -> (snd m | nth i (place e ms) 0) /\ e <= nth i (place e ms) 0 /\ nth i (place e ms) 0 + fst m <= ends e ms).
  { clear. induction 1 as [|[s a] ms [Hs Ha] F IH]; intros e i m H; [destruct i; discriminate|]. cbn [place ends fst snd] in *. assert (P := pow2_pos a Ha). destruct (up_spec e a ltac:(lia)) as [P1 P2]. destruct i as [|i]; cbn [nth_error nth] in *.
    - injection H as <-. cbn [fst snd]. pose proof (ends_ge ms F (up e a + s)). split; [auto|lia].
    - destruct (IH (up e a + s) i m H) as (X & Y & Z). split; [auto|lia]. }
  assert (D : forall ms, Forall mok ms -> forall e i j m, (i < j < length ms)%nat -> nth_error ms i = Some m -> nth i (place e ms) 0 + fst m <= nth j (place e ms) 0).
  { clear - A. induction 1 as [|[s a] ms Hm F IH]; intros e i j m I H; [cbn [length] in I; lia|]. cbn [place length] in *. destruct j as [|j]; [lia|]. destruct i as [|i]; cbn [nth_error nth] in *.
    - injection H as <-. cbn [fst]. destruct (nth_error ms j) as [m'|] eqn:Q; [|apply nth_error_None in Q; lia]. destruct (A ms F (up e a + s) j m' Q) as (_ & Y & _). lia.
    - apply IH; auto. lia. }
  split; [apply struct_ok; auto|]. split; [apply L|]. split; [|split; [|split; [|split; [|split; [exact UD|split]]]]].
  - intros i m H. destruct (A ms F 0 i m H) as (X & Y & Z). split; [auto|]. split; [apply WD; eapply nth_error_In; eauto|lia].
  - intros i j m I H. apply D; auto.
  - enough (G : forall e i m m', nth_error ms i = Some m -> nth_error ms (S i) = Some m' -> forall x, nth i (place e ms) 0 + fst m <= x -> (snd m' | x) -> nth (S i) (place e ms) 0 <= x) by apply G.
    clear - F. induction F as [|[s a] ms Hm F IH]; intros e i m m' H H' x X1 X2; [destruct i; discriminate|]. destruct i as [|i].
    + cbn [nth_error place nth] in *. injection H as <-. destruct F as [|[s' a'] ms Hm' F]; [discriminate|]. injection H' as <-. cbn [fst snd place nth] in *. assert (P := pow2_pos _ (proj2 Hm')). cbn [snd] in P. apply up_least; auto; lia.
    + cbn [nth_error place] in *. exact (IH _ i m m' H H' x X1 X2).
  - intros N. destruct ms as [|[s a] ms]; [congruence|]. inversion F as [|? ? [_ P] _]; subst. cbn [place nth snd] in *. assert (Q := pow2_pos _ P). apply up_0. lia.
  - intros x X H. clear - X H. induction ms as [|m ms IH]; cbn [widest fold_right]; [lia|]. fold (widest ms). apply Z.max_lub; [apply Z.divide_pos_le; [lia|apply H; cbn; auto]|apply IH; intros; apply H; cbn; auto].
  - intros x X0 XD H. apply up_least; auto; [lia|]. enough (G : forall e, e <= x -> (forall i m, nth_error ms i = Some m -> nth i (place e ms) 0 + fst m <= x) -> ends e ms <= x) by (apply G; auto).
    clear. induction ms as [|[s a] ms IH]; intros e E H; cbn [ends place] in *; [auto|]. apply IH; [specialize (H O (s, a) eq_refl); cbn [nth fst] in H; auto|intros i m Hm; exact (H (S i) m Hm)].
Qed.
Print Assumptions C96_struct.
(** a union whose members are all of size 0 has size 1 in generic code and 0 for the instance: what follows the union lies elsewhere *)
Theorem C96_union_refuted : exists f ts, wf (Struct ts) /\ (forall i, wf (f i)) /\ small (inst f (Struct ts)) /\
  dyn_offsets (fun i => c_layout (f i)) ts <> place 0 (map c_layout (map (inst f) ts)) /\ dyn (fun i => c_layout (f i)) (Struct ts) <> c_layout (inst f (Struct ts)).
Proof.
  exists (fun _ => Struct []), [Union [Param 0]; Basic 4 4]. assert (P4 : pow2 4) by (exists 2; split; [lia|reflexivity]). cbn [wf small inst map c_layout fst]. unfold two64. repeat split; try exact P4; try (vm_compute; reflexivity); try lia; vm_compute; discriminate.
Qed.
Print Assumptions C96_union_refuted.
(** forall(T, U) struct { char c; T t; U u[3]; struct { short s; T * p; } }, with T int and U struct { char; double } *)
Example C96_ex : let f i := match i with O => Basic 4 4 | _ => Struct [Basic 1 1; Basic 8 8] end in let ts := [Basic 1 1; Param 0; Arr 3 (Param 1); Struct [Basic 2 2; Basic 8 8]] in
  dyn (fun i => c_layout (f i)) (Struct ts) = (72, 8) /\ dyn_offsets (fun i => c_layout (f i)) ts = [0; 4; 8; 56] /\ c_layout (inst f (Struct ts)) = (72, 8).
Proof. vm_compute. repeat split. Qed.
Example C96_union_ex : dyn (fun _ => (5, 1)) (Union [Param 0; Basic 2 2]) = (6, 2).
Proof. reflexivity. Qed.
