(** C93: every I/O completion is delivered once, in order, however many processors drain the ring *)
From Coq Require Import List Bool Arith ZArith Lia ZifyBool.
From Verif.IoRing Require Import Model.
From Verif.IoDrain Require Import Model Spec Proofs.
Import ListNotations.
Open Scope Z_scope.
Lemma reach_inv k c0 n l s : reach k c0 n l s -> inv k s /\ posted s = completed l.
Proof. intros [K H]. split; [eapply (inv_steps k K); [|exact H]; apply inv_start; auto|]. rewrite (posted_steps _ _ _ H). reflexivity. Qed.
(** what the processors have delivered, all together, is at all times the beginning of what the kernel has completed *)
Theorem C93_once : forall k c0 n l s, reach k c0 n l s -> exists rest, completed l = delivered s ++ rest.
Proof. intros k c0 n l s R. destruct (reach_inv _ _ _ _ _ R) as [I P]. rewrite <- P. destruct I as [q _ _ _ Q|p c q i _ _ _ _ _ _ Q]; eauto. Qed.
Print Assumptions C93_once.
(** at most one processor works on the ring, and only with the lock *)
Theorem C93_alone : forall k c0 n l s, reach k c0 n l s -> forall p q c d, nth_error (ps s) p = Some c -> nth_error (ps s) q = Some d -> working c = true -> working d = true -> p = q /\ lk s = true.
Proof.
  intros k c0 n l s R p q c d P Q C D. destruct (reach_inv _ _ _ _ _ R) as [I _]. destruct I as [x _ F _ _|r e x i L _ _ U _ _ _].
  - rewrite (F _ _ P) in C; discriminate.
  - rewrite (U _ _ P C), (U _ _ Q D). auto.
Qed.
Print Assumptions C93_alone.
(** the kernel never overwrites a completion that was not delivered: the ring holds what was completed and is not kept back *)
Theorem C93_bounded : forall k c0 n l s, reach k c0 n l s -> 0 <= w32 (tl s - hd s) <= 2 ^ k.
Proof. intros k c0 n l s R. destruct (reach_inv _ _ _ _ _ R) as [I _]. destruct (inv_holds k s I) as (q & H). rewrite (h_len _ _ _ H). pose proof (h_max _ _ _ H). lia. Qed.
Print Assumptions C93_bounded.
(** nothing that is in the ring gets stuck: whatever has happened, the processors can go on and deliver everything that the kernel has not kept back, and leave the lock free *)
Theorem C93_drained : forall k c0 n l s, reach k c0 (S n) l s -> exists l' s', by_processors l' /\ steps s l' = Some s' /\ completed l = delivered s' ++ over s /\ lk s' = false.
Proof.
  intros k c0 n l s R. destruct (reach_inv _ _ _ _ _ R) as [I P]. destruct R as [K R].
  assert (NE : ps s <> []).
  { assert (G : forall l s0, steps s0 l = Some s -> length (ps s) = length (ps s0)). { clear. induction l as [|a l IH]; cbn [steps]; intros s0 H; [congruence|]. destruct (step s0 a) eqn:E; [|discriminate]. rewrite (IH _ H). apply (ps_len _ _ _ E). }
    apply G in R. cbn [start ps] in R. rewrite repeat_length in R. destruct (ps s); discriminate. }
  destruct (drains k K (mu s) s (le_n _) I NE) as (l' & s' & B & St & O & L & F). exists l', s'. split; auto. split; auto. split; auto.
  rewrite <- P. pose proof (posted_steps _ _ _ St) as Q. assert (C : completed l' = []). { clear -B. induction B as [|a l H B IH]; auto. destruct a; try contradiction. exact IH. }
  rewrite C, app_nil_r in Q. rewrite <- Q, <- O. apply (inv_left k); auto. eapply inv_steps; eauto.
Qed.
Print Assumptions C93_drained.
(** a ring of two, two processors, the second comes in vain *)
Example C93_ex : exists s, steps (start 2 (fun _ => 0) 2) [Post 7; Post 8; Go 0 true; Go 1 true; Go 0 true; Go 1 true; Go 0 true; Go 0 true; Post 9; Go 0 true; Go 0 true; Go 0 true; Go 0 true; Go 0 true; Go 0 true; Go 0 true] = Some s /\
  log s = [(0%nat, 7); (0%nat, 8); (0%nat, 9)] /\ lk s = false /\ ps s = [Out; Out].
Proof. eexists. split; [vm_compute; reflexivity|]. repeat split. Qed.
(** Completions that are kept back are asked for only after a full ring was drained. When the ring became full during the draining of fewer, they stay with the kernel; the kernel keeps back all later ones too, and no processor asks for them: nothing is ever delivered again (unless the kernel moves them on its own) *)
Theorem C93_overflow_refuted : exists l s, reach 1 (fun _ => 0) 2 l s /\ over s = [9] /\
  forall l' s', Forall (fun a => a <> Flush) l' -> steps s l' = Some s' -> delivered s' = delivered s.
Proof.
  exists [Post 7; Go 0 true; Go 0 true; Go 0 true; Post 8; Post 9; Go 0 true; Go 0 true; Go 0 true; Go 0 true; Go 0 true; Go 0 true; Go 0 true; Go 0 true; Go 0 true].
  eexists. split; [split; [lia|vm_compute; reflexivity]|]. split; [reflexivity|].
  assert (G : forall l' s s', hd s = tl s -> w32 (tl s) = tl s -> over s <> [] -> Forall (fun c => c = Out) (ps s) -> Forall (fun a => a <> Flush) l' -> steps s l' = Some s' -> delivered s' = delivered s).
  { induction l' as [|a l' IH]; intros s s' H Hw O P F St; cbn [steps] in St; [congruence|]. inversion F as [|? ? Fa Fl]; subst. destruct a as [c| |p ok]; [|contradiction|].
    - cbn [step] in St. unfold kpost in St. destruct (over s) as [|x ov] eqn:Eo; [contradiction|]. cbn [andb] in St.
      specialize (IH (push s [] (over s ++ [c]) [c]) s'). rewrite Eo in IH. rewrite IH; auto.
      + cbn [push hd tl length Z.of_nat]. rewrite Z.add_0_r, Hw, H. reflexivity.
      + cbn [push tl length Z.of_nat]. rewrite Z.add_0_r, !Hw. reflexivity.
      + cbn [push over]. discriminate.
    - cbn [step] in St. destruct (nth_error (ps s) p) as [c|] eqn:N; [|discriminate]. assert (c = Out) by (rewrite Forall_forall in P; apply P; eapply nth_error_In; eauto). subst c.
      rewrite H, Z.eqb_refl in St. apply IH in St; auto. cbn [at_ ps]. clear -P. revert p; induction P as [|c l Hc P IH]; intros [|p]; cbn [put]; constructor; auto. }
  intros l' s' F St. eapply G; [| | | |exact F|exact St]; vm_compute; [reflexivity|reflexivity|discriminate|repeat constructor].
Qed.
Print Assumptions C93_overflow_refuted.
