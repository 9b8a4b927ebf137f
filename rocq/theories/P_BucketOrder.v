(* P_BucketOrder.v - order of deletion among equal keys. *)
From Verif Require Import SpecPQOrder M_BucketPQ P_BucketPQ.

Definition bof (span : nat) (l : list (nat * N)) (a : nat) : list nat :=
  map fst (filter (fun e => N.to_nat (snd e) + span =? a) l).

Definition ordrel (span : nat) (s : bq) (l : list (nat * N)) : Prop :=
  NoDup (map fst l) /\ forall a, bkt s a = bof span l a.

Lemma bof_in span l a v : In v (bof span l a) <-> exists k, In (v, k) l /\ N.to_nat k + span = a.
Proof.
  unfold bof. rewrite in_map_iff. split.
  - intros [[u k] [E H]]. apply filter_In in H. destruct H as [H G]. apply Nat.eqb_eq in G. simpl in *. subst u. eauto.
  - intros [k [H G]]. exists (v, k). split; [reflexivity|]. apply filter_In. split; [auto|]. apply Nat.eqb_eq. auto.
Qed.

Lemma ordrel_abs n span s l v k : binv n span s -> ordrel span s l -> (babs s v = Some k <-> In (v, k) l).
Proof.
  intros I [_ R]. split.
  - intro H. unfold babs in H. destruct (fst (bix s v)) eqn:F; [|discriminate]. inversion H; subst k.
    assert (FN : fst (bix s v) <> None) by congruence.
    pose proof (b_in _ _ _ I v FN) as Q. rewrite R, bof_in in Q. destruct Q as [k [Q E]].
    replace (snd (bix s v)) with k by lia. exact Q.
  - intro H. assert (Q : In v (bkt s (N.to_nat k + span))) by (rewrite R, bof_in; eauto).
    destruct (b_in_props _ _ _ _ _ I Q) as [_ [_ [_ [K [p [_ [_ F]]]]]]].
    unfold babs. rewrite F, K. f_equal. lia.
Qed.

Lemma kmax_ge l v k : In (v, k) l -> (k <= kmax l)%N.
Proof.
  unfold kmax. induction l as [|[u j] l IH]; intros H; [destruct H|]. simpl.
  destruct H as [H|H]; [inversion H; subst; lia|]. apply IH in H. lia.
Qed.

Lemma kmax_in l : l <> [] -> exists v, In (v, kmax l) l.
Proof.
  unfold kmax. induction l as [|[u j] l IH]; intros H; [congruence|]. simpl.
  destruct l as [|e l']; [exists u; simpl; left; f_equal; lia|].
  destruct IH as [v Hv]; [discriminate|].
  destruct (N.le_ge_cases j (fold_right N.max 0 (map snd (e :: l')))%N) as [L|L].
  - exists v. right. rewrite N.max_r by auto. exact Hv.
  - exists u. left. rewrite N.max_l by auto. reflexivity.
Qed.

Lemma at_max_top n span s l : binv n span s -> ordrel span s l -> l <> [] ->
  nonempty (babs s) /\ bkt s (bq_mx s) = at_max l.
Proof.
  intros I R NE. destruct (kmax_in l NE) as [v Hv].
  assert (NB : nonempty (babs s)) by (exists v, (kmax l); apply (ordrel_abs _ _ _ _ _ _ I R); auto).
  split; [auto|]. pose proof (nonempty_top _ _ _ I NB) as L.
  destruct (at_top _ _ _ _ I L) as [_ [Sp [A _]]]. destruct (top_is_max _ _ _ _ I L) as [_ M].
  apply (ordrel_abs _ _ _ _ _ _ I R) in A.
  assert (E : kmax l = N.of_nat (bq_mx s - span)).
  { apply N.le_antisymm; [apply (M v); apply (ordrel_abs _ _ _ _ _ _ I R); auto|].
    apply kmax_ge in A. exact A. }
  rewrite (proj2 R). unfold bof, at_max. f_equal. apply filter_ext. intros [u k]. cbn [snd].
  rewrite E. destruct (Nat.eqb_spec (N.to_nat k + span) (bq_mx s)), (N.eqb_spec k (N.of_nat (bq_mx s - span))); try reflexivity; exfalso; lia.
Qed.

Lemma bof_app span l v k a : bof span (l ++ [(v, k)]) a = if a =? N.to_nat k + span then bof span l a ++ [v] else bof span l a.
Proof.
  unfold bof. rewrite filter_app, map_app. simpl. rewrite Nat.eqb_sym.
  destruct (_ =? _); [reflexivity|apply app_nil_r].
Qed.

Lemma bof_filter span l c a : bof span (filter (fun e => negb (fst e =? c)) l) a = filter (fun u => negb (u =? c)) (bof span l a).
Proof.
  unfold bof. induction l as [|[u k] l IH]; [reflexivity|]. cbn [filter fst snd].
  destruct (u =? c) eqn:C, (N.to_nat k + span =? a) eqn:A; cbn [negb filter fst snd map]; rewrite ?C, ?A; cbn [negb filter map]; rewrite ?IH; cbn [fst]; rewrite ?C; reflexivity.
Qed.

Lemma filter_neq_id c l : ~ In c l -> filter (fun u => negb (u =? c)) l = l.
Proof.
  induction l as [|x l IH]; intro H; [reflexivity|]. simpl. destruct (Nat.eqb_spec x c) as [->|]; [exfalso; apply H; left; auto|].
  simpl. f_equal. apply IH. intro; apply H; right; auto.
Qed.

Lemma NoDup_map_filter {A} (f : A -> nat) (P : A -> bool) l : NoDup (map f l) -> NoDup (map f (filter P l)).
Proof.
  induction l as [|x l IH]; intro H; [exact H|]. simpl in *. inversion H; subst. destruct (P x); [|auto].
  simpl. constructor; [|auto]. intro Q. apply H2. apply in_map_iff in Q. destruct Q as [y [E Q]].
  apply filter_In in Q. apply in_map_iff. exists y. tauto.
Qed.

Lemma delete_max_bkt fifo n span s s' v : binv n span s -> bq_delete_max fifo s = Some (s', v) ->
  v = (if fifo then hd 0 (bkt s (bq_mx s)) else last (bkt s (bq_mx s)) 0) /\
  forall a, bkt s' a = filter (fun u => negb (u =? v)) (bkt s a).
Proof.
  intros I H.
  assert (NEB : bkt s (bq_mx s) <> []).
  { unfold bq_delete_max, fifo_delete_max, lifo_delete_max in H. fold (bkt s (bq_mx s)) in H.
    destruct fifo, (bkt s (bq_mx s)); congruence. }
  assert (L : 0 < length (bkt s (bq_mx s))) by (destruct (bkt s (bq_mx s)); [congruence|simpl; lia]).
  destruct (at_top _ _ _ _ I L) as [_ [_ [_ [Mr _]]]].
  pose proof (b_nodup _ _ _ (bq_mx s) I) as ND.
  assert (B : exists b', (forall a, bkt s' a = if a =? bq_mx s then b' else bkt s a) /\
     (if fifo then bkt s (bq_mx s) = v :: b' else bkt s (bq_mx s) = b' ++ [v])).
  { assert (U : forall x ix mx off cnt a, bkt (mk_bq cnt (bq_span s) mx ix (upd (bq_bk s) (bq_mx s) x) off) a = if a =? bq_mx s then x else bkt s a).
    { intros. unfold bkt. cbn [bq_bk]. rewrite nth_upd, (b_bkl _ _ _ I).
      replace (bq_mx s <? 2 * span + 1) with true by (symmetry; apply Nat.ltb_lt; auto). rewrite andb_true_r. reflexivity. }
    destruct fifo; cbn [bq_delete_max] in H.
    - unfold fifo_delete_max in H. fold (bkt s (bq_mx s)) in H. destruct (bkt s (bq_mx s)) as [|x b'] eqn:EB; [congruence|].
      inversion H; subst. exists b'. split; [intro a; apply U|reflexivity].
    - unfold lifo_delete_max in H. fold (bkt s (bq_mx s)) in H. destruct (bkt s (bq_mx s)) as [|x xs] eqn:EB; [congruence|].
      injection H as H1 H2. exists (removelast (x :: xs)).
      rewrite <- H1, <- H2. split; [intro a; apply U|].
      exact (app_removelast_last 0 NEB). }
  destruct B as [b' [B1 B2]].
  assert (NV : ~ In v b').
  { destruct fifo; rewrite B2 in ND.
    - apply NoDup_cons_iff in ND. tauto.
    - apply NoDup_remove_2 in ND. rewrite app_nil_r in ND. exact ND. }
  split.
  - destruct fifo; rewrite B2; [reflexivity|]. rewrite last_last. reflexivity.
  - intro a. rewrite B1. destruct (Nat.eqb_spec a (bq_mx s)) as [->|A].
    + destruct fifo; rewrite B2.
      * simpl. rewrite Nat.eqb_refl. simpl. symmetry. apply filter_neq_id; auto.
      * rewrite filter_app. simpl. rewrite Nat.eqb_refl. simpl. rewrite app_nil_r. symmetry. apply filter_neq_id; auto.
    + symmetry. apply filter_neq_id. intro Q. apply A.
      apply (b_same _ _ _ _ _ v I Q). destruct fifo; rewrite B2; [left; auto|apply in_or_app; right; left; auto].
Qed.

Lemma bq_order fifo n span : forall os s l, wfb fifo n span s -> ordrel span s l -> ord_ok fifo n span l os ->
  bq_run fifo s os = ord_run fifo l os.
Proof.
  induction os as [|o os IH]; intros s l W R H; [reflexivity|].
  pose proof (proj1 W) as I.
  destruct o as [v k| |v|v k|v k|v k|v|v| | | |]; cbn [ord_ok] in H; try contradiction; cbn [bq_run bq_step ord_run].
  - destruct H as [Vn [Nl [K H]]].
    assert (Av : babs s v = None).
    { destruct (babs s v) eqn:A; [|reflexivity]. exfalso. apply Nl.
      apply (ordrel_abs _ _ _ _ _ _ I R) in A. apply in_map_iff. exists (v, n0). auto. }
    destruct (bq_insert_ok _ _ _ _ _ k W Vn Av K) as [s' [X [W' [_ [_ B]]]]]. rewrite X. cbn [option_map].
    f_equal. apply IH; auto. split.
    + rewrite map_app. simpl. apply Permutation_NoDup with (v :: map fst l); [apply Permutation_cons_append|constructor; [auto|apply R]].
    + intro a. rewrite B, bof_app, (proj2 R). reflexivity.
  - destruct H as [NE H]. destruct (at_max_top _ _ _ _ I R NE) as [NB T].
    destruct (delete_max_any _ _ _ _ W NB) as [s' [v [X [W' _]]]]. rewrite X. cbn [option_map].
    destruct (delete_max_bkt _ _ _ _ _ _ I X) as [Ev Bs].
    assert (v = pick fifo l) as EP by (rewrite Ev, T; reflexivity). rewrite <- EP in *.
    f_equal. apply IH; auto. split.
    + apply NoDup_map_filter. apply R.
    + intro a. rewrite Bs, bof_filter, (proj2 R). reflexivity.
Qed.

Lemma ordrel_init n span : ordrel span (bq_init n span) [].
Proof.
  split; [constructor|]. intro a. unfold bkt, bq_init. cbn [bq_bk]. apply nth_repeat_any.
Qed.
