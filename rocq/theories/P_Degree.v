(* P_Degree.v - degrees of the static graph. *)
From Verif Require Import SpecBuild P_Graph SpecDegree.

Definition wof (es : elist) : wedges := map (fun e => (fst e, snd (snd e))) es.

Lemma filter_wof es v : sumN snd (map snd (filter (fun e => fst e =? v) es)) = sp_deg (wof es) v.
Proof.
  unfold sp_deg, wof. induction es as [|e es IH]; [reflexivity|]. simpl. destruct (fst e =? v); simpl; rewrite IH; reflexivity.
Qed.

Lemma sum_deg_ok n es g v : gfin n es g -> StronglySorted le (map fst es) -> v < n -> sum_deg g v = sp_deg (wof es) v.
Proof. intros F S H. unfold sum_deg. rewrite (edges_of_ok n es g v F S H). apply filter_wof. Qed.

Record dinv (n : nat) (es : elist) (g : csr) : Prop := {
  di_fin : gfin n es g;
  di_sort : StronglySorted le (map fst es);
  di_deg : c_comp g = true -> (forall v, v < n -> nth v (c_deg g) 0%N = sp_deg (wof es) v) /\
     (0 < n -> (forall v, v < n -> (sp_deg (wof es) v <= u64max)%N) -> sp_min n (wof es) (c_min g) /\ sp_max n (wof es) (c_max g)) }.

Lemma fold_min_ok : forall ds d0, let m := fold_left (fun m d => if (d <? m)%N then d else m) ds d0 in
  (m <= d0)%N /\ (forall d, In d ds -> (m <= d)%N) /\ (m = d0 \/ In m ds).
Proof.
  induction ds as [|d ds IH]; intros d0; simpl; [split; [lia|split; [intros d []|auto]]|].
  specialize (IH (if (d <? d0)%N then d else d0)). simpl in IH. destruct IH as [I1 [I2 I3]].
  destruct (N.ltb_spec d d0) as [L|L]; (split; [lia|split]).
  - intros x [<-|Hx]; auto.
  - destruct I3; auto.
  - intros x [<-|Hx]; [lia|auto].
  - destruct I3; auto.
Qed.

Lemma fold_max_ok : forall ds d0, let m := fold_left (fun m d => if (m <? d)%N then d else m) ds d0 in
  (d0 <= m)%N /\ (forall d, In d ds -> (d <= m)%N) /\ (m = d0 \/ In m ds).
Proof.
  induction ds as [|d ds IH]; intros d0; simpl; [split; [lia|split; [intros d []|auto]]|].
  specialize (IH (if (d0 <? d)%N then d else d0)). simpl in IH. destruct IH as [I1 [I2 I3]].
  destruct (N.ltb_spec d0 d) as [L|L]; (split; [lia|split]).
  - intros x [<-|Hx]; auto.
  - destruct I3; auto.
  - intros x [<-|Hx]; [lia|auto].
  - destruct I3; auto.
Qed.

Lemma gfin_n n es g : gfin n es g -> num_nodes g = n.
Proof. intro F. unfold num_nodes. rewrite (gf_len _ _ _ F). lia. Qed.

Lemma compute_ok n es g : dinv n es g -> dinv n es (compute_degrees g) /\ c_comp (compute_degrees g) = true.
Proof.
  intro D. unfold compute_degrees. destruct (c_comp g) eqn:C; [split; auto|]. split; [|reflexivity].
  pose proof (di_fin _ _ _ D) as F. pose proof (di_sort _ _ _ D) as S.
  pose proof (gfin_n _ _ _ F) as N. rewrite N.
  assert (E : map (sum_deg g) (seq 0 n) = map (sp_deg (wof es)) (seq 0 n)).
  { apply map_ext_in. intros v Hv. apply in_seq in Hv. eapply sum_deg_ok; eauto. lia. }
  rewrite E. set (ds := map (sp_deg (wof es)) (seq 0 n)).
  assert (M : forall x, In x ds <-> exists v, v < n /\ x = sp_deg (wof es) v).
  { intro x. unfold ds. rewrite in_map_iff. split.
    - intros [v [<- Hv]]. apply in_seq in Hv. exists v. split; [lia|auto].
    - intros [v [Hv ->]]. exists v. split; [auto|]. apply in_seq. lia. }
  constructor; cbn [c_comp c_deg c_min c_max].
  - destruct F. constructor; auto.
  - auto.
  - intros _. split.
    + intros v Hv. unfold ds. rewrite (nth_indep (map _ _) 0%N (sp_deg (wof es) 0)) by (rewrite map_length, seq_length; auto).
      rewrite map_nth, seq_nth by auto. reflexivity.
    + intros Hn B. pose proof (fold_min_ok ds u64max) as [A1 [A2 A3]]. pose proof (fold_max_ok ds 0%N) as [B1 [B2 B3]].
      assert (D0 : In (sp_deg (wof es) 0) ds) by (apply M; exists 0; auto).
      split; split.
      * intros v Hv. apply A2, M. eauto.
      * destruct A3 as [A3|A3]; [|apply M; auto]. exists 0. split; [auto|]. specialize (A2 _ D0). specialize (B 0 Hn). lia.
      * intros v Hv. apply B2, M. eauto.
      * destruct B3 as [B3|B3]; [|apply M; auto]. exists 0. split; [auto|]. specialize (B2 _ D0). lia.
Qed.

Lemma map_upd {A B} (f : A -> B) l i x : map f (upd l i x) = upd (map f l) i (f x).
Proof. revert i. induction l as [|a l IH]; intros [|i]; simpl; auto. rewrite IH. reflexivity. Qed.

Lemma set_ok n es g e w : gfin n es g -> StronglySorted le (map fst es) -> c_comp g = false -> e < length es ->
  exists g' es', set_edge_weight g e w = Some g' /\ dinv n es' g' /\ c_comp g' = false /\ wof es' = sp_set (wof es) e w.
Proof.
  intros F S C He. unfold set_edge_weight. rewrite (gf_edges _ _ _ F), map_length.
  replace (e <? length es) with true by (symmetry; apply Nat.ltb_lt; auto).
  set (x := nth e es (0, (0, 0%N))).
  assert (X : nth e (map snd es) (0, 0%N) = snd x) by (unfold x; rewrite <- (map_nth snd); reflexivity).
  assert (FST : map fst (upd es e (fst x, (fst (snd x), w))) = map fst es).
  { rewrite map_upd. simpl. unfold x. rewrite <- (map_nth fst). simpl. apply upd_same. }
  eexists. exists (upd es e (fst x, (fst (snd x), w))). split; [reflexivity|]. split; [|split].
  - constructor; cbn [c_comp].
    + constructor; cbn [c_nodes c_edges].
      * apply (gf_len _ _ _ F).
      * rewrite X, map_upd. reflexivity.
      * intros y Hy. apply (in_map fst) in Hy. rewrite FST in Hy. apply in_map_iff in Hy. destruct Hy as [z [<- Hz]].
        apply (gf_lt _ _ _ F z Hz).
      * intros i Hi. rewrite (gf_cnt _ _ _ F) by auto.
        assert (Q : forall l, cntlt l i = length (filter (fun s => s <? i) (map fst l))).
        { clear. intro l. unfold cntlt. induction l as [|y l IH]; [reflexivity|]. simpl. destruct (fst y <? i); simpl; rewrite IH; auto. }
        rewrite !Q, FST. reflexivity.
    + rewrite FST. auto.
    + congruence.
  - exact C.
  - unfold wof, sp_set. rewrite map_upd. simpl. f_equal.
    rewrite (nth_indep (map _ es) (0, 0%N) ((fun e => (fst e, snd (snd e))) (0, (0, 0%N)))) by (rewrite map_length; auto).
    rewrite (map_nth (fun e => (fst e, snd (snd e)))). reflexivity.
Qed.

Lemma session_ok n : 0 < n -> forall cs es g, dinv n es g -> no_late_set cs ->
  (c_comp g = true -> forall e w, ~ In (GSet e w) cs) -> sp_session n (wof es) cs (g_session g cs).
Proof.
  intros Hn. induction cs as [|c cs IH]; intros es g D NL NS; [reflexivity|].
  intro R. cbn [g_session]. pose proof (di_fin _ _ _ D) as F. pose proof (gfin_n _ _ _ F) as NN.
  destruct c as [e w|v| |]; cbn [g_call].
  - destruct (c_comp g) eqn:C; [exfalso; eapply NS; [reflexivity|left; reflexivity]|].
    simpl in R. unfold wof in R. rewrite map_length in R.
    destruct (set_ok n es g e w F (di_sort _ _ _ D) C R) as [g' [es' [-> [D' [C' W]]]]].
    split; [reflexivity|]. cbn [sp_next]. rewrite <- W. apply IH; auto. congruence.
  - simpl in R. rewrite NN. replace (v <? n) with true by (symmetry; apply Nat.ltb_lt; auto). split.
    + simpl. f_equal. unfold get_degree. destruct (c_comp g) eqn:C.
      * apply (di_deg _ _ _ D C); auto.
      * eapply sum_deg_ok; eauto. apply (di_sort _ _ _ D).
    + apply IH; auto. intros C e w H. apply (NS C e w). right; auto.
  - destruct NL as [NL1 NL2]. destruct (compute_ok n es g D) as [D' C']. unfold get_min_degree. split.
    + eexists. split; [reflexivity|]. apply (di_deg _ _ _ D' C'); auto.
    + apply IH; auto.
  - destruct NL as [NL1 NL2]. destruct (compute_ok n es g D) as [D' C']. unfold get_max_degree. split.
    + eexists. split; [reflexivity|]. apply (di_deg _ _ _ D' C'); auto.
    + apply IH; auto.
Qed.
