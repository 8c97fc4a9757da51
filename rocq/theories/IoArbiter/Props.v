(** C94: threads that wait for the arbiter are served *)
From Coq Require Import List Bool Arith ZArith Lia ZifyBool.
From Verif.IoRing Require Import Model.
From Verif.IoArbiter Require Import Model Spec Proofs.
Import ListNotations.
Open Scope Z_scope.
(** Submissions to the ring of another processor: each goes into the ring once, in the order of the requests; the owner's in their order *)
Theorem C94_once : forall n l s, reach n l s -> exists rest, external s ++ rest = requests l /\ own s = owned l.
Proof.
  intros n l s H. destruct (asked_steps l _ _ H) as [A O]. pose proof (inv_steps l _ _ (inv_start n) H) as I. cbn [start asked own kr map concat app] in A, O.
  assert (D : exists c, data s c) by (destruct I; eauto). destruct D as (c & [D1 _ _]). exists (hand c ++ q s). split; [congruence|exact O].
Qed.
Print Assumptions C94_once.
(** a thread is woken only after its entries are in the ring, once, and in order; and threads are not woken late: at most one has its entries in the ring and is not woken *)
Theorem C94_woken : forall n l s, reach n l s -> exists more, map fst (external s) = woken s ++ more /\ (length more <= 1)%nat /\ (lk s = false -> more = []).
Proof.
  intros n l s H. pose proof (inv_steps l _ _ (inv_start n) H) as I. destruct I as [B F [_ D _]|p c B N W U [_ D _]].
  - exists []. repeat split; auto.
  - exists (late c). repeat split; [auto|destruct c; cbn [late length]; lia|congruence].
Qed.
Print Assumptions C94_woken.
(** the flag that lets a flush return at once is right: nothing waits then *)
Theorem C94_flag : forall n l s, reach n l s -> flag s = true -> q s = [].
Proof. intros n l s H E. pose proof (inv_steps l _ _ (inv_start n) H) as I. destruct I as [B F [_ _ D]|p c B N W U [_ _ D]]; auto. Qed.
Print Assumptions C94_flag.
(** one processor at a time moves requests *)
Theorem C94_alone : forall n l s p c p' c', reach n l s -> nth_error (ps s) p = Some c -> nth_error (ps s) p' = Some c' -> inside c = true -> inside c' = true -> p = p'.
Proof.
  intros n l s p c p' c' H N N' W W'. pose proof (inv_steps l _ _ (inv_start n) H) as I. destruct I as [B F _|p2 c2 B N2 W2 U _]; [rewrite (F _ _ N) in W; discriminate|].
  rewrite (U _ _ N W), (U _ _ N' W'). reflexivity.
Qed.
Print Assumptions C94_alone.
(** as long as some processor is awake and flushes, all that is outstanding gets into the ring and all threads get woken *)
Theorem C94_flushed : forall n l s p c, reach n l s -> nth_error (ps s) p = Some c -> awake c = true ->
  exists l' s', by_processors l' /\ steps s l' = Some s' /\ external s' = requests l /\ woken s' = map fst (requests l) /\ q s' = [] /\ lk s' = false.
Proof.
  intros n l s p c H N A. pose proof (inv_steps l _ _ (inv_start n) H) as I. destruct (flushes p (mu p s) s c (le_n _) I N A) as (l' & s' & B & St & Le & Lk). exists l', s'. split; [auto|]. split; [auto|].
  pose proof (inv_steps l' _ _ I St) as I'. destruct I' as [B' F Hd|p2 c2 B' _ _ _ _]; [|congruence]. pose proof (left_is _ _ Hd) as L. rewrite Le in L. cbn [late hand length Nat.add] in L. destruct (q s') as [|x r] eqn:Q; [|discriminate].
  destruct Hd as [D1 D2 _]. cbn [hand late app] in D1, D2. rewrite Q, !app_nil_r in *. destruct (asked_steps l _ _ H) as [A1 _]. destruct (asked_steps l' _ _ St) as [A2 _]. cbn [start asked app] in A1.
  assert (R : requests l' = []). { clear -B. induction B as [|a l Ha _ IH]; [reflexivity|]. unfold requests in *. cbn [map concat]. rewrite IH. destruct a; tauto. }
  rewrite R, app_nil_r in A2. rewrite A1 in A2. repeat split; congruence.
Qed.
Print Assumptions C94_flushed.
(** But the owner does not always: a request that comes in after the flush and before the owner falls asleep is signalled in vain. Then all submitted entries are with the kernel (no completion of this ring has to come), nobody is left to wake the owner, and the thread waits. *)
Theorem C94_sleep_refuted : exists l s, reach 1 l s /\ nth_error (ps s) 0 = Some Asleep /\ q s <> [] /\ todo s = [] /\ pend s = true /\ ts s = 0%nat /\ forall a s', match a with Ext _ _ => False | _ => True end -> step s a <> Some s'.
Proof.
  exists [Begin 0; Go 0; Go 0; Ext 7 [3]; Mark; Nap]. eexists. split; [vm_compute; reflexivity|]. cbn [ps q todo pend Model.ts nth_error]. repeat (split; [try reflexivity; discriminate|]).
  intros [t e| |e|[|[|p]]|[|[|p]]|] s' H; cbn; try discriminate; destruct H.
Qed.
Print Assumptions C94_sleep_refuted.
(** the next request does not help: the queue is not empty, so no signal is sent *)
Theorem C94_more_refuted : exists l s, reach 1 l s /\ nth_error (ps s) 0 = Some Asleep /\ length (q s) = 2%nat /\ todo s = [] /\ forall a s', match a with Ext _ _ => False | _ => True end -> step s a <> Some s'.
Proof.
  exists [Begin 0; Go 0; Go 0; Ext 7 [3]; Mark; Nap; Ext 8 [4]; Mark]. eexists. split; [vm_compute; reflexivity|]. cbn [ps q todo nth_error length]. repeat (split; [reflexivity|]).
  intros [t e| |e|[|[|p]]|[|[|p]]|] s' H; cbn; try discriminate; destruct H.
Qed.
Print Assumptions C94_more_refuted.
(** and pending, which makes a busy processor flush, is cleared by a system call that came after the flush: the request waits though the processor is awake *)
Theorem C94_pending_refuted : exists l s, reach 1 l s /\ nth_error (ps s) 0 = Some Run /\ q s <> [] /\ todo s = [] /\ pend s = false.
Proof.
  exists [Own [1]; Begin 0; Go 0; Ext 7 [3]; Mark; Go 0; Go 0]. eexists. split; [vm_compute; reflexivity|]. cbn [ps q todo pend nth_error]. repeat split; discriminate.
Qed.
Print Assumptions C94_pending_refuted.
(** Allocations: what a notification is to do; it grants requests in order as long as there are enough entries *)
Theorem C94_intended : forall r reqs, let '(gs, _, more) := serve r reqs in length gs = served (w32 (ft r - fh r)) reqs /\ more = skipn (length gs) reqs /\ Forall2 (fun g w => exists l, g = Some l /\ length l = w) gs (firstn (length gs) reqs).
Proof.
  intros r reqs. revert r. induction reqs as [|w reqs IH]; intros r; cbn [serve served]; [repeat split; constructor|].
  unfold alloc. destruct (w32 (ft r - fh r) <? Z.of_nat w) eqn:E.
  - replace (Z.of_nat w <=? w32 (ft r - fh r)) with false by lia. repeat split; constructor.
  - replace (Z.of_nat w <=? w32 (ft r - fh r)) with true by lia. match goal with |- context[serve ?r' reqs] => specialize (IH r'); destruct (serve r' reqs) as [[gs r2] more] end.
    destruct IH as (I1 & I2 & I3). cbn [length skipn firstn]. repeat split; [|auto|constructor; auto; eexists; split; [reflexivity|unfold read; rewrite map_length; unfold iota; rewrite map_length, seq_length; reflexivity]].
    rewrite I1. f_equal. f_equal. cbn [ft fh]. unfold w32 in *. rewrite Zminus_mod_idemp_r. assert (M := Z.mod_pos_bound (ft r - fh r) (2 ^ 32) ltac:(lia)).
    replace (ft r - (fh r + Z.of_nat w)) with ((ft r - fh r) - Z.of_nat w) by lia. rewrite <- Zminus_mod_idemp_l. apply Z.mod_small. lia.
Qed.
Print Assumptions C94_intended.
(** The test is the wrong way round: with more entries than wanted nothing is granted; with fewer, the thread is woken and its array of entries was never written *)
Theorem C94_notify_refuted : forall r w rest,
  (Z.of_nat w < w32 (ft r - fh r) -> alloc r w <> None /\ notify r (w :: rest) = ([], r, w :: rest)) /\
  (w32 (ft r - fh r) < Z.of_nat w -> alloc r w = None /\ exists gs r' more, notify r (w :: rest) = (None :: gs, r', more)).
Proof.
  intros r w rest. cbn [notify]. split; intros H.
  - replace (Z.of_nat w <? w32 (ft r - fh r)) with true by lia. split; [|reflexivity]. unfold alloc. replace (w32 (ft r - fh r) <? Z.of_nat w) with false by lia. discriminate.
  - replace (Z.of_nat w <? w32 (ft r - fh r)) with false by lia. assert (E : alloc r w = None) by (unfold alloc; replace (w32 (ft r - fh r) <? Z.of_nat w) with true by lia; reflexivity). split; [exact E|]. rewrite E. destruct (notify r rest) as [[gs r'] more]. eauto.
Qed.
Print Assumptions C94_notify_refuted.
(** it agrees with the intention only on a request for exactly the entries there are *)
Theorem C94_notify_exact : forall r w rest, (0 < w)%nat -> fst (fst (notify r (w :: rest))) = fst (fst (serve r (w :: rest))) -> w32 (ft r - fh r) = Z.of_nat w.
Proof.
  intros r w rest P H. destruct (C94_notify_refuted r w rest) as [A B]. destruct (Z.lt_trichotomy (Z.of_nat w) (w32 (ft r - fh r))) as [L|[L|L]]; auto; exfalso.
  - destruct (A L) as [A1 A2]. rewrite A2 in H. cbn [serve] in H. destruct (alloc r w) as [[l r']|]; [|congruence]. destruct (serve r' rest) as [[gs r2] more]. discriminate.
  - destruct (B L) as (B1 & gs & r' & more & B2). rewrite B2 in H. cbn [serve] in H. rewrite B1 in H. discriminate.
Qed.
Print Assumptions C94_notify_exact.
(** Even with the right test: entries that are released between the failed attempt and the request are not noticed. All entries are free, nothing is with the kernel, and the thread waits *)
Theorem C94_lost_wakeup_refuted : exists r l s, r = snd (run (setup 4 (fun _ => 0)) [Alloc 4; Submit [0; 1; 2; 3]]) /\
  fold_left (fun s a => match s with Some s => astep true s a | None => None end) l (Some (AL r [] (Looks 1))) = Some s /\
  client s = Waits /\ waiting s = [1%nat] /\ w32 (ft (rg s) - fh (rg s)) = nm (rg s) /\ IoRing.Model.ts (rg s) = 0 /\ kh (rg s) = kt (rg s).
Proof. eexists _, [Client; Kernel 4; Client], _. split; [reflexivity|]. split; [vm_compute; reflexivity|]. vm_compute. repeat split. Qed.
Print Assumptions C94_lost_wakeup_refuted.
(** three processors: two threads submit to the ring of processor 0, processor 1 flushes for it *)
Example C94_ex : exists s, reach 3 [Ext 7 [3]; Mark; Own [9]; Begin 1; Go 1; Go 1; Go 1; Go 1; Begin 2; Go 2; Go 1; Go 1; Ext 8 [4; 5]; Go 2; Go 2; Go 2; Go 2; Go 2] s /\
  kr s = [(None, [9]); (Some 7%nat, [3]); (Some 8%nat, [4; 5])] /\ woken s = [7; 8]%nat /\ flag s = true.
Proof. eexists. vm_compute. repeat split. Qed.
Example C94_notify_ex : notify (setup 4 (fun _ => 0)) [4; 2; 1]%nat = ([Some [0; 1; 2; 3]; None; None], snd (run (setup 4 (fun _ => 0)) [Alloc 4]), []) /\ fst (fst (notify (setup 4 (fun _ => 0)) [2; 1]%nat)) = [] /\ fst (fst (serve (setup 4 (fun _ => 0)) [2; 1; 2]%nat)) = [Some [0; 1]; Some [2]].
Proof. vm_compute. repeat split. Qed.
