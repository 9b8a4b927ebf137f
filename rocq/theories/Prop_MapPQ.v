(* Prop_MapPQ.v - C87: bucket_pq is a priority queue. *)
From Verif Require Import SpecPQ P_SpecPQ M_BucketPQ P_BucketPQ M_MapPQ.

(** bucket_pq works like node_bucket_pq, with the entries of the nodes that are not queued left out *)
Definition conv (e : option nat * N) : option (nat * N) := match fst e with Some p => Some (p, snd e) | None => None end.
Record sim (s : bp) (t : bq) : Prop := {
  s_cnt : bp_cnt s = bq_cnt t; s_span : bp_span s = bq_span t; s_mx : bp_mx s = bq_mx t; s_bk : bp_bk s = bq_bk t;
  s_ix : forall v, bp_ix s v = conv (bix t v) }.

Lemma conv_queued t v : babs t v <> None <-> conv (bix t v) <> None.
Proof. unfold babs, conv. destruct (fst (bix t v)); split; congruence. Qed.
Lemma nth_ix_first ix v c u : v < length ix -> nth u (ix_first ix v c) (None, 0%N) = if u =? v then (c, snd (nth v ix (None, 0%N))) else nth u ix (None, 0%N).
Proof. intro H. unfold ix_first. destruct (Nat.eqb_spec u v) as [->|Ne]; [apply nth_upd_eq; auto|apply nth_upd_neq; auto]. Qed.

Lemma insert_sim n span s t v k t' : wfb false n span t -> sim s t -> v < n -> bq_insert t v k = Some t' -> exists s', bp_insert s v k = Some s' /\ sim s' t'.
Proof.
  intros [I Z] [A B C D E] Hv H. specialize (Z eq_refl). unfold boff in Z. unfold bq_insert, bq_addr in H. unfold bp_insert. cbv zeta in *. rewrite A, B, C, D.
  destruct (N.to_nat (key32 k) + bq_span t <? length (bq_bk t)); [|discriminate H]. destruct (v <? length (bq_ix t)) eqn:L; [|discriminate H]. cbn [andb] in H. apply Nat.ltb_lt in L. injection H as <-.
  eexists. split; [reflexivity|]. constructor; cbn [bp_cnt bp_span bp_mx bp_bk bp_ix bq_cnt bq_span bq_mx bq_bk]; auto.
  intro u. unfold bp_set, bix. cbn [bq_ix]. rewrite Z, Nat.add_0_r. destruct (Nat.eqb_spec u v) as [->|Ne]; [rewrite nth_upd_eq by auto; reflexivity|rewrite nth_upd_neq by auto; apply E].
Qed.

Lemma delete_max_sim n span s t t' v : wfb false n span t -> sim s t -> lifo_delete_max t = Some (t', v) -> exists s', bp_delete_max s = Some (s', v) /\ sim s' t'.
Proof.
  intros [I Z] [A B C D E] H. unfold lifo_delete_max in H. unfold bp_delete_max. rewrite A, B, C, D. destruct (nth (bq_mx t) (bq_bk t) []) as [|x xs] eqn:Eb; [discriminate H|]. cbv zeta in *. injection H as <- <-.
  eexists. split; [reflexivity|]. constructor; cbn [bp_cnt bp_span bp_mx bp_bk bp_ix bq_cnt bq_span bq_mx bq_bk]; auto.
  assert (L : In (last (x :: xs) 0) (bkt t (bq_mx t))).
  { unfold bkt. rewrite Eb, last_nth. apply nth_In. cbn [length]. lia. }
  destruct (b_in_props _ _ _ _ _ I L) as [Ln _]. intro u. unfold bp_set, bix. cbn [bq_ix]. change (match xs with [] => x | _ :: _ => last xs 0 end) with (last (x :: xs) 0). rewrite nth_ix_first by (rewrite (b_ixl _ _ _ I); auto). destruct (u =? last (x :: xs) 0); [reflexivity|apply E].
Qed.

Lemma delete_node_sim n span s t v t' : wfb false n span t -> sim s t -> babs t v <> None -> lifo_delete_node t v = Some t' -> exists s', bp_delete_node s v = Some s' /\ sim s' t'.
Proof.
  intros [I Z] [A B C D E] Q H. specialize (Z eq_refl). destruct (queued _ _ _ _ I Q) as [p X]. cbv zeta in X. destruct X as (Vn & Pl & Pn & F & Al & NE). rewrite Z, Nat.add_0_r in F, NE.
  unfold lifo_delete_node in H. rewrite NE in H. cbv zeta in H. unfold bq_addr in H. rewrite (b_span _ _ _ I) in H.
  set (k := snd (bix t v)) in *. set (a := N.to_nat k + span) in *.
  unfold bp_delete_node. assert (EA : bp_at (bp_ix s) v = (p, k)) by (unfold bp_at; rewrite E; unfold conv; rewrite F; reflexivity). rewrite EA, A, B, C, D, (b_span _ _ _ I). cbv zeta. fold a.
  unfold bkt in Pl, Pn. destruct (Nat.ltb_spec p (length (nth a (bq_bk t) []))); [|lia]. destruct (Nat.ltb_spec a (length (bq_bk t))); [|rewrite (b_bkl _ _ _ I) in *; lia]. cbn [andb].
  set (b := nth a (bq_bk t) []) in *. assert (IL := b_ixl _ _ _ I).
  destruct (1 <? length b) eqn:B1.
  - apply Nat.ltb_lt in B1. injection H as <-. eexists. split; [reflexivity|]. constructor; cbn [bp_cnt bp_span bp_mx bp_bk bp_ix bq_cnt bq_span bq_mx bq_bk]; auto; try (symmetry; apply (b_span _ _ _ I)).
    assert (L : In (last b 0) (bkt t a)) by (unfold bkt; fold b; rewrite last_nth; apply nth_In; lia).
    destruct (b_in_props _ _ _ _ _ I L) as (Ln & _ & _ & _ & q & _ & _ & Fq).
    intro u. unfold bix. cbn [bq_ix]. rewrite nth_ix_first by (rewrite ix_first_length; lia). rewrite !nth_ix_first by lia.
    unfold bp_set at 1. destruct (Nat.eqb_spec u v) as [->|Ne]; [reflexivity|]. unfold bp_set at 1. destruct (Nat.eqb_spec u (last b 0)) as [->|Ne2].
    + unfold conv. cbn [fst snd]. f_equal. f_equal. unfold bp_at, bp_set. destruct (Nat.eqb_spec (last b 0) v); [contradiction|]. rewrite E. unfold conv. rewrite Fq. reflexivity.
    + unfold bp_set. destruct (Nat.eqb_spec u v); [contradiction|]. apply E.
  - injection H as <-. eexists. split; [reflexivity|]. constructor; cbn [bp_cnt bp_span bp_mx bp_bk bp_ix bq_cnt bq_span bq_mx bq_bk]; auto; try (symmetry; apply (b_span _ _ _ I)).
    intro u. unfold bix. cbn [bq_ix]. rewrite nth_ix_first by lia. unfold bp_set. destruct (u =? v); [reflexivity|apply E].
Qed.

Lemma step_sim n span s t m o t' r : wfb false n span t -> sim s t -> (forall u, m u = babs t u) -> pre_bucket n span m o -> bq_step false t o = Some (t', r) -> exists s', bp_step s o = Some (s', r) /\ sim s' t'.
Proof.
  intros W M E P H. assert (M' := M). destruct M' as [A B C D F]. assert (I := proj1 W). assert (IL := b_ixl _ _ _ I).
  assert (CK : forall v k t1, v < n -> m v <> None -> bq_change_key false t v k = Some t1 -> exists s', bp_change_key s v k = Some s' /\ sim s' t1).
  { intros v k t1 Hv Q X. rewrite E in Q. unfold bq_change_key in X. cbn [bq_delete_node] in X. destruct (lifo_delete_node t v) as [t2|] eqn:X2; [|discriminate X].
    destruct (delete_node_sim n span s t v t2 W M Q X2) as (s2 & Y & M2). unfold bp_change_key. rewrite Y. destruct (delete_node_any false n span t v W Q) as (t3 & X3 & W3 & _). cbn [bq_delete_node] in X3. rewrite X2 in X3. injection X3 as <-.
    apply (insert_sim n span s2 t2); auto. }
  destruct o as [v k| |v|v k|v k|v k|v|v| | | |]; cbn [pre_bucket bq_step bp_step bq_delete_max bq_delete_node] in *.
  - destruct (bq_insert t v k) as [t1|] eqn:X; [|discriminate H]. injection H as <- <-. destruct (insert_sim n span s t v k t1 W M ltac:(tauto) X) as (s1 & -> & Q). exists s1. auto.
  - destruct (lifo_delete_max t) as [[t1 v]|] eqn:X; [|discriminate H]. injection H as <- <-. destruct (delete_max_sim n span s t t1 v W M X) as (s1 & -> & Q). exists s1. auto.
  - destruct (lifo_delete_node t v) as [t1|] eqn:X; [|discriminate H]. injection H as <- <-. destruct P as [_ P]. rewrite E in P. destruct (delete_node_sim n span s t v t1 W M P X) as (s1 & -> & Q). exists s1. auto.
  - destruct (bq_change_key false t v k) as [t1|] eqn:X; [|discriminate H]. injection H as <- <-. destruct (CK v k t1 ltac:(tauto) ltac:(tauto) X) as (s1 & -> & Q). exists s1. auto.
  - destruct (bq_change_key false t v k) as [t1|] eqn:X; [|discriminate H]. injection H as <- <-. destruct (CK v k t1 ltac:(tauto) ltac:(tauto) X) as (s1 & -> & Q). exists s1. auto.
  - destruct (bq_change_key false t v k) as [t1|] eqn:X; [|discriminate H]. injection H as <- <-. destruct (CK v k t1 ltac:(tauto) ltac:(tauto) X) as (s1 & -> & Q). exists s1. auto.
  - rewrite (nth_error_nth' _ (None, 0%N)) in H by lia. cbn [option_map] in H. injection H as <- <-. exists s. split; [|auto]. rewrite F. unfold conv. fold (bix t v). destruct (fst (bix t v)); reflexivity.
  - destruct P as [Hv Q]. rewrite E in Q. rewrite (nth_error_nth' _ (None, 0%N)) in H by lia. cbn [option_map] in H. injection H as <- <-. fold (bix t v).
    assert (X : bp_ix s v = Some (bp_at (bp_ix s) v) /\ snd (bp_at (bp_ix s) v) = snd (bix t v)).
    { unfold bp_at. rewrite F. unfold babs in Q. unfold conv. destruct (fst (bix t v)); [auto|congruence]. }
    destruct X as [X1 X2]. eexists. split; [rewrite X2; reflexivity|]. constructor; cbn [bp_cnt bp_span bp_mx bp_bk bp_ix]; auto. intro u. unfold bp_set. destruct (Nat.eqb_spec u v) as [->|]; [rewrite <- X1|]; apply F.
  - injection H as <- <-. exists s. rewrite A. auto.
  - injection H as <- <-. exists s. rewrite A. auto.
  - rewrite C, D. destruct (nth (bq_mx t) (bq_bk t) []) as [|x xs]; [discriminate H|]. injection H as <- <-. exists s. auto.
  - injection H as <- <-. exists s. rewrite B, C. auto.
Qed.

Lemma bp_run_ok n span : forall os s t m, wfb false n span t -> sim s t -> (forall u, m u = babs t u) -> behaves (pre_bucket n span) n m os (bp_run s os).
Proof.
  induction os as [|o os IH]; intros s t m W M E; [reflexivity|]. cbn [behaves bp_run]. intro P.
  destruct (bq_step_ok _ _ _ _ _ _ W E P) as (t' & r & m' & X & Y & Z & Q). destruct (step_sim n span s t m o t' r W M E P X) as (s' & -> & M').
  exists r, (bp_run s' os), m'. split; [auto|]. split; [auto|]. apply (IH s' t'); auto.
Qed.

Lemma sim_init n span : sim (bp_init span) (bq_init n span).
Proof. constructor; auto. intro v. cbn [bp_init bp_ix]. unfold bix, bq_init. cbn [bq_ix]. rewrite nth_repeat_any. reflexivity. Qed.

(** C87: for every gain span and every history of calls, the answers of bucket_pq are those of the finite-map specification, as long as each call
    meets its precondition (n: any bound of the node ids in the history; bucket_pq does not need one) *)
Theorem C87_map_bucket_is_priority_queue : forall n span os, behaves (pre_bucket n span) n qempty os (bp_run (bp_init span) os).
Proof. intros n span os. apply (bp_run_ok n span os _ (bq_init n span)); [apply wfb_init|apply sim_init|intro u; symmetry; apply babs_init]. Qed.
Print Assumptions C87_map_bucket_is_priority_queue.

Definition c87_history : list qop :=
  [QInsert 0 5; QInsert 1 5; QInsert 2 5; QInsert 3 1; QIncreaseKey 3 5; QDeleteNode 1; QMaxElement; QMaxValue; QChangeKey 0 6; QDeleteMax; QContains 0; QDecreaseKey 2 0; QGetKey 2; QSize; QDeleteMax; QDeleteMax; QEmpty].
Example C87_ex : bp_run (bp_init 6) c87_history =
  [RUnit; RUnit; RUnit; RUnit; RUnit; RUnit; RNode 2; RKey 5; RUnit; RNode 0; RBool false; RUnit; RKey 0; RNum 2; RNode 3; RNode 2; RBool true].
Proof. vm_compute. reflexivity. Qed.

(** the precondition of getKey is needed for later calls: asking for the key of a node that is not queued makes it look queued *)
Theorem C87_getkey_changes_refuted : ~ (forall span v os, In (RBool true) (bp_run (bp_init span) (os ++ [QGetKey v; QContains v])) -> In (RBool true) (bp_run (bp_init span) (os ++ [QContains v]))).
Proof. intro F. specialize (F 1 3 []). assert (X : In (RBool true) (bp_run (bp_init 1) ([] ++ [QContains 3]))) by (apply F; vm_compute; auto). vm_compute in X. destruct X as [X|[]]. discriminate X. Qed.
Print Assumptions C87_getkey_changes_refuted.
