From Coq Require Import List Bool Arith Lia.
From Verif.Virtual Require Import Model Spec Proofs.
Import ListNotations.
(** is_parent decides ancestry, in any memory, whenever it ends; and it ends when the chain of parents does *)
Theorem C120_parent : forall w p c, c <> 0 ->
  (forall f b, is_parent f w p c = Ok b -> (b = true <-> ancestor w p c)) /\
  (forall n f, depth w n c -> n <= f -> exists b, is_parent f w p c = Ok b) /\
  ((forall n, ~ depth w n c) -> ~ ancestor w p c -> forall f, is_parent f w p c = More).
Proof.
  intros w p c Hc. unfold is_parent. destruct (Nat.eqb_spec c 0) as [|_]; [congruence|]. split; [intros f b; apply walk_sound; exact Hc|]. split; [intros n f D L; eapply walk_total; eassumption|].
  intros D A f. apply walk_more; assumption.
Qed.
Print Assumptions C120_parent.
(** ancestry is an order, and the ancestors of one type are in a line *)
Theorem C120_order : forall w,
  (forall c, c <> 0 -> ancestor w c c) /\ (forall p q c, ancestor w p q -> ancestor w q c -> ancestor w p c) /\
  (forall p c n, depth w n c -> ancestor w p c -> ancestor w c p -> p = c) /\ (forall p q c, ancestor w p c -> ancestor w q c -> ancestor w p q \/ ancestor w q p).
Proof.
  intros w. split; [intros c; apply anc_self|]. split; [intros p q c; apply anc_trans|]. split; [|intros p q c; apply anc_total].
  intros p c n D A B. destruct (anc_depth w p c n A D) as [m [Dm [L E]]]. destruct (anc_depth w c p m B Dm) as [k [Dk [L2 _]]]. apply E. pose proof (depth_fun w c n k D Dk). lia.
Qed.
Print Assumptions C120_order.
(** a virtual cast gives the object itself exactly when the type asked for is the type of the object or an ancestor of it, and else null *)
Theorem C120_cast : forall w p obj n f, obj <> 0 -> w obj <> 0 -> p <> w obj -> depth w n (w (w obj)) -> n < f ->
  virtual_cast f w p obj = Ok obj /\ ancestor w p (w (w obj)) \/ virtual_cast f w p obj = Ok 0 /\ ~ ancestor w p (w (w obj)).
Proof.
  intros w p obj n f Ho Hv Hp D Hf. unfold virtual_cast. destruct (Nat.eqb_spec obj 0); [congruence|]. destruct (C120_parent w p (w obj) Hv) as [S1 [T1 _]].
  destruct (T1 (S n) f) as [b E]; [constructor; assumption|lia|]. rewrite E. pose proof (S1 f b E) as K.
  assert (A : ancestor w p (w obj) <-> ancestor w p (w (w obj))). { split; [intros A; inversion A; subst; [congruence|assumption]|intros A; constructor 2; assumption]. }
  destruct b; [left; split; [reflexivity|apply A; apply K; reflexivity]|]. right. split; [reflexivity|]. rewrite <- A. intros F. apply K in F. discriminate.
Qed.
Print Assumptions C120_cast.
(** so a cast that succeeds also succeeds to every ancestor of its target *)
Theorem C120_upcast : forall w p q obj n f, obj <> 0 -> w obj <> 0 -> p <> w obj -> q <> w obj -> depth w n (w (w obj)) -> n < f ->
  virtual_cast f w p obj = Ok obj -> ancestor w q p -> virtual_cast f w q obj = Ok obj.
Proof.
  intros w p q obj n f Ho Hv Hp Hq D Hf H A. destruct (C120_cast w p obj n f Ho Hv Hp D Hf) as [[_ B]|[B _]]; [|congruence].
  destruct (C120_cast w q obj n f Ho Hv Hq D Hf) as [[E _]|[_ E]]; [exact E|]. exfalso. apply E. eapply anc_trans; eassumption.
Qed.
Print Assumptions C120_upcast.
(** the null pointer and an object without a virtual table are refused *)
Theorem C120_null : forall w p f, virtual_cast f w p 0 = Fails /\ (forall obj, w obj = 0 -> virtual_cast f w p obj = Fails).
Proof. intros w p f. split; [reflexivity|]. intros obj H. unfold virtual_cast. destruct (obj =? 0); [reflexivity|]. unfold is_parent. rewrite H. reflexivity. Qed.
Print Assumptions C120_null.
(** the translator uses the first definition of a type id, or else its first declaration, and reports exactly the second definitions *)
Theorem C120_table : forall l k, lookup k (inserts l []) = chosen k l.
Proof. intros l k. rewrite inserts_after. reflexivity. Qed.
Print Assumptions C120_table.
Theorem C120_conflict : forall l k d, fst (insert k d (inserts l [])) = if snd d then None else first (fun d => negb (snd d)) k l.
Proof.
  intros l k d. unfold insert. rewrite C120_table. unfold chosen. destruct (first (fun d => negb (snd d)) k l) as [v|] eqn:E.
  - assert (V : negb (snd v) = true). { unfold first in E. cbv beta in E. destruct (find (fun x => (k =? fst x) && negb (snd (snd x))) l) as [y|] eqn:F; [|discriminate]. apply find_some in F. destruct F as [_ F]. apply andb_prop in F. cbn [option_map] in E. injection E as <-. apply F. }
    rewrite V. destruct (snd d); reflexivity.
  - destruct (first (fun _ => true) k l) as [v|] eqn:F; [|destruct (snd d); reflexivity]. destruct (snd d); [reflexivity|].
    assert (V : negb (snd v) = false).
    { unfold first in E, F. cbv beta in E, F. match type of F with option_map snd ?e = _ => destruct e as [y|] eqn:G end; [|discriminate]. cbn [option_map] in F. injection F as <-. apply find_some in G. destruct G as [G1 G2]. rewrite andb_true_r in G2.
      match type of E with option_map snd ?e = _ => destruct e eqn:K end; [discriminate|]. pose proof (find_none _ _ K y G1) as N. cbn beta in N. rewrite G2 in N. exact N. }
    rewrite V. reflexivity.
Qed.
Print Assumptions C120_conflict.
(** type ids 1 <- 2 <- 3 and 1 <- 4; virtual table 10 of type 3; object 20 *)
Definition mem_ex (a : nat) : nat := match a with 2 => 1 | 3 => 2 | 4 => 1 | 10 => 3 | 20 => 10 | _ => 0 end.
Example ex_cast : map (fun p => virtual_cast 9 mem_ex p 20) [1; 2; 3; 4] = [Ok 20; Ok 20; Ok 20; Ok 0].
Proof. reflexivity. Qed.
Example ex_table : lookup 5 (inserts [(5, (1, true)); (5, (2, false)); (5, (3, false)); (6, (4, true)); (6, (7, true))] []) = Some (2, false) /\ lookup 6 (inserts [(6, (4, true)); (6, (7, true))] []) = Some (4, true).
Proof. split; reflexivity. Qed.
