(* Prop_TempCC.v - property C92: temporal_largest_cc keeps the temporal edges of a largest connected component, in order, and numbers
   its vertices 1, 2, ... in the old order. *)
From Coq Require Import Relations.
From Verif Require Import SpecHop SpecRel SpecInduced M_TempCC P_Scc P_Contract P_Graph Prop_Scc.

(** the pairs of vertices joined by an edge at any time *)
Definition t_pairs (es : list (nat * nat * Z * N)) : list (nat * nat) := map (fun e => (fst (fst (fst e)), snd (fst (fst e)))) es.

(** the lines expected for the component cs: the edges with an end in cs in their old order, with the new numbers of the ends *)
Definition t_expected (num : nat -> nat) (cs : list nat) (es : list (nat * nat * Z * N)) : list (nat * nat * Z * N) :=
  map (fun e => let '(a, b, c, d) := e in (num a, num b, c, d)) (filter (fun e => if in_dec Nat.eq_dec (fst (fst (fst e))) cs then true else false) es).

Lemma hop_trans nb a b c p q : hop nb a b p -> hop nb b c q -> hop nb a c (p + q).
Proof. intros X Y. induction Y as [|y z q Y IHY Ez]; [rewrite Nat.add_0_r; auto|]. rewrite Nat.add_succ_r. econstructor; [exact IHY|exact Ez]. Qed.

Lemma in_tc_rows n es u v : (forall e, In e es -> te_a e < n /\ te_b e < n) ->
  In v (nth u (present (tc_rows n es)) []) <-> u <> v /\ exists e, In e es /\ (te_a e = u /\ te_b e = v \/ te_a e = v /\ te_b e = u).
Proof.
  intro R. rewrite in_present. unfold tc_rows. destruct (Nat.lt_ge_cases u n) as [L|L].
  - rewrite (nth_indep _ [] (tc_row es 0)) by (rewrite map_length, seq_length; exact L). rewrite map_nth, seq_nth by exact L. cbn [Nat.add]. unfold tc_row. rewrite in_flat_map. split.
    + intros (e & He & H). destruct (Nat.eqb_spec (te_a e) (te_b e)) as [|N]; [destruct H|]. destruct (Nat.eqb_spec (te_a e) u) as [A|A].
      * destruct H as [H|[]]. injection H as H. split; [congruence|]. exists e. auto.
      * destruct (Nat.eqb_spec (te_b e) u) as [B|B]; [|destruct H]. destruct H as [H|[]]. injection H as H. split; [congruence|]. exists e. auto.
    + intros (N & e & He & H). exists e. split; [exact He|]. destruct (Nat.eqb_spec (te_a e) (te_b e)) as [|N']; [lia|]. destruct (Nat.eqb_spec (te_a e) u) as [A|A].
      * left. f_equal. lia.
      * destruct (Nat.eqb_spec (te_b e) u) as [B|B]; [left; f_equal; lia|lia].
  - rewrite nth_overflow by (rewrite map_length, seq_length; exact L). split; [intros []|]. intros (_ & e & He & H). specialize (R e He). lia.
Qed.

Lemma in_t_pairs es x y : In (x, y) (t_pairs es) <-> exists e, In e es /\ te_a e = x /\ te_b e = y.
Proof.
  unfold t_pairs. rewrite in_map_iff. split.
  - intros (e & E & H). injection E as A B. exists e. auto.
  - intros (e & H & A & B). exists e. split; [unfold te_a, te_b in *; congruence|exact H].
Qed.

Lemma tc_scc n es u v : (forall e, In e es -> te_a e < n /\ te_b e < n) -> same_scc (present (tc_rows n es)) u v <-> conn (t_pairs es) u v.
Proof.
  intro R. split.
  - intros [(k & H) _]. induction H as [|v w k _ IH Hw]; [apply conn_refl|]. eapply conn_trans; [exact IH|]. apply (in_tc_rows n es v w R) in Hw as (_ & e & He & [[A B]|[A B]]).
    + apply conn_pair, in_t_pairs. exists e. auto.
    + apply conn_sym, conn_pair, in_t_pairs. exists e. auto.
  - induction 1 as [x|x y H|x y _ [A B]|x y z _ [A B] _ [C D]].
    + split; exists 0; constructor.
    + destruct (Nat.eq_dec x y) as [->|N]; [split; exists 0; constructor|]. apply in_t_pairs in H as (e & He & A & B).
      split; exists 1; (econstructor; [constructor|]); apply (in_tc_rows n es _ _ R); (split; [lia|exists e; auto]).
    + split; assumption.
    + destruct A as [a A], B as [b B], C as [c C], D as [d D]. split; eexists; eapply hop_trans; eassumption.
Qed.

Lemma conn_closed es (cs : list nat) n : (forall e, In e es -> te_a e < n /\ te_b e < n) -> (forall v, In v cs -> v < n) ->
  (forall x v, In x cs -> v < n -> (In v cs <-> conn (t_pairs es) x v)) -> forall x y, conn (t_pairs es) x y -> (In x cs <-> In y cs).
Proof.
  intros R LT CL x y H. induction H as [x|x y H|x y _ IH|x y z _ IH1 _ IH2]; [tauto| |tauto|tauto].
  pose proof (conn_pair _ _ _ H) as C. apply in_t_pairs in H as (e & He & A & B). specialize (R e He). split; intro I.
  - apply (CL x y I); [lia|exact C].
  - apply (CL y x I); [lia|apply conn_sym, C].
Qed.

(** the written graph is connected *)
Lemma out_conn es (cs : list nat) num : (forall x y, conn (t_pairs es) x y -> (In x cs <-> In y cs)) ->
  forall x y, conn (t_pairs es) x y -> In x cs -> conn (t_pairs (t_expected num cs es)) (num x) (num y).
Proof.
  intros CL x y H. induction H as [x|x y H|x y H IH|x y z H1 IH1 H2 IH2]; intro I.
  - apply conn_refl.
  - apply conn_pair. apply in_t_pairs in H as (e & He & A & B). apply in_t_pairs. exists (num x, num y, snd (fst e), snd e). split; [|split; reflexivity].
    unfold t_expected. apply in_map_iff. exists e. split; [destruct e as [[[a b] c] d]; unfold te_a, te_b in *; cbn [fst snd] in *; congruence|]. apply filter_In. split; [exact He|].
    unfold te_a in A. rewrite A. destruct (in_dec Nat.eq_dec x cs); [reflexivity|contradiction].
  - apply conn_sym, IH. apply (CL _ _ H), I.
  - eapply conn_trans; [apply IH1, I|apply IH2, (CL _ _ H1), I].
Qed.

Lemma tc_ids_nth m : forall comps ctr v, v < length comps -> tc_is m (nth v comps None) = true ->
  nth v (tc_ids m ctr comps) 0 = ctr + length (filter (fun i => tc_is m (nth i comps None)) (seq 0 v)).
Proof.
  induction comps as [|o r IH]; intros ctr v L T; [cbn in L; lia|]. cbn [tc_ids]. destruct v as [|v].
  - cbn [nth] in T. rewrite T. cbn. lia.
  - cbn [length] in L. cbn [nth] in T. change (seq 0 (S v)) with (0 :: seq 1 v). rewrite <- seq_shift.
    assert (S1 : forall l, length (filter (fun i => tc_is m (nth i (o :: r) None)) (map S l)) = length (filter (fun i => tc_is m (nth i r None)) l)).
    { induction l as [|a l IHl]; [reflexivity|]. cbn [map filter]. change (nth (S a) (o :: r) None) with (nth a r None). destruct (tc_is m (nth a r None)); cbn [length]; rewrite IHl; reflexivity. }
    cbn [filter]. change (nth 0 (o :: r) None) with o. destruct (tc_is m o); cbn [length]; rewrite S1; [change (nth (S v) (ctr :: tc_ids m (S ctr) r) 0) with (nth v (tc_ids m (S ctr) r) 0)|change (nth (S v) (0 :: tc_ids m ctr r) 0) with (nth v (tc_ids m ctr r) 0)]; rewrite IH by (auto; lia); lia.
Qed.

Lemma filter_rank (f : nat -> bool) : forall n i, i < length (filter f (seq 0 n)) -> length (filter f (seq 0 (nth i (filter f (seq 0 n)) 0))) = i.
Proof.
  induction n as [|n IH]; intros i L; [cbn in L; lia|]. rewrite seq_S, filter_app in *. cbn [Nat.add filter] in *. destruct (Nat.lt_ge_cases i (length (filter f (seq 0 n)))) as [A|A].
  - rewrite app_nth1 by exact A. apply IH, A.
  - rewrite app_length in L. destruct (f n); cbn [length] in L; [|lia]. rewrite app_nth2 by exact A. replace (i - length (filter f (seq 0 n))) with 0 by lia. cbn [nth]. lia.
Qed.

Lemma sorted_filter_seq (f : nat -> bool) : forall m a, StronglySorted lt (filter f (seq a m)).
Proof.
  induction m as [|m IH]; intro a; [constructor|]. cbn [seq filter]. destruct (f a); [|apply IH]. constructor; [apply IH|]. apply Forall_forall. intros x H. apply filter_In in H as [H _]. apply in_seq in H. lia.
Qed.

(** ** C92 *)
Theorem C92_temporal_cc : forall n es, (forall a b c d, In (a, b, c, d) es -> a < n /\ b < n) ->
  exists cs num, temporal_cc n es = Some (t_expected num cs es) /\
    StronglySorted lt cs /\ (forall v, In v cs -> v < n) /\ (n <> 0 -> cs <> []) /\
    (forall x v, In x cs -> v < n -> (In v cs <-> conn (t_pairs es) x v)) /\
    (forall ds, NoDup ds -> (forall x v, In x ds -> In v ds -> v < n /\ conn (t_pairs es) x v) -> length ds <= length cs) /\
    (forall i, i < length cs -> num (nth i cs 0) = i + 1) /\
    (forall i j, 1 <= i <= length cs -> 1 <= j <= length cs -> conn (t_pairs (t_expected num cs es)) i j).
Proof.
  intros n es R0.
  assert (R : forall e, In e es -> te_a e < n /\ te_b e < n) by (intros [[[a b] c] d] H; apply (R0 a b c d H)).
  assert (L : length (tc_rows n es) = n) by (unfold tc_rows; rewrite map_length, seq_length; reflexivity).
  unfold temporal_cc. rewrite (proj2 (forallb_forall _ es)) by (intros e He; destruct (R e He); apply andb_true_iff; split; apply Nat.ltb_lt; assumption).
  destruct (C45_components scc_new (tc_rows n es) so_new) as (s & E & LC & A & NE & B).
  { rewrite L. intros u v H. apply (in_tc_rows n es u v R) in H as (_ & e & He & H). specialize (R e He). lia. }
  rewrite L in *. rewrite E.
  assert (B' : forall u v, u < n -> v < n -> (nth u (s_comp s) None = nth v (s_comp s) None <-> conn (t_pairs es) u v)) by (intros u v Hu Hv; rewrite (B u v Hu Hv); apply tc_scc, R).
  destruct (comp_sizes_ok (s_cc s) (s_comp s) (repeat 0 (s_cc s))) as (sz & -> & LS & SZ).
  { intros o Ho. apply (In_nth _ _ None) in Ho as (v & Hv & <-). rewrite LC in Hv. destruct (A v Hv) as (c & Q1 & Q2). exists c. auto. }
  { apply repeat_length. }
  assert (SZ' : forall q, nth q sz 0 = length (filter (fun v => has q (nth v (s_comp s) None)) (seq 0 n))).
  { intro q. rewrite SZ, (filter_nth_seq _ _ None), LC. replace (nth q (repeat 0 (s_cc s)) 0) with 0; [reflexivity|]. clear. generalize (s_cc s). intro k. revert q. induction k as [|k IH]; intros [|q]; cbn; auto. }
  cbv zeta. set (m := max_index sz). set (blk := fun v => tc_is m (nth v (s_comp s) None)). set (cs := filter blk (seq 0 n)).
  set (num := fun v => nth v (tc_ids m 1 (s_comp s)) 0).
  assert (IC : forall v, In v cs <-> v < n /\ nth v (s_comp s) None = Some m).
  { intro v. unfold cs, blk, tc_is. rewrite filter_In, in_seq. destruct (nth v (s_comp s) None) as [c|]; [rewrite Nat.eqb_eq|]; split; intros [X Y]; split; try lia; try congruence. }
  assert (SC : forall q, nth q sz 0 <= length cs).
  { intro q. assert (DN : sz = [] \/ sz <> []) by (destruct sz; [left; reflexivity|right; discriminate]). destruct DN as [E0|DN]; [rewrite E0; destruct q; cbn; lia|]. destruct (max_index_ok sz DN) as [_ Q]. specialize (Q q). fold m in Q. rewrite (SZ' m) in Q. exact Q. }
  assert (LT : forall v, In v cs -> v < n) by (intros v Hv; apply IC in Hv; tauto).
  assert (CL : forall x v, In x cs -> v < n -> (In v cs <-> conn (t_pairs es) x v)).
  { intros x v Hx Hv. apply IC in Hx as [Hx Q]. rewrite IC, <- (B' x v Hx Hv), Q. intuition. }
  pose proof (conn_closed es cs n R LT CL) as CC.
  assert (NU : forall i, i < length cs -> num (nth i cs 0) = i + 1).
  { intros i Hi. assert (I : In (nth i cs 0) cs) by (apply nth_In, Hi). unfold num. apply IC in I as [I1 I2]. rewrite tc_ids_nth; [|rewrite LC; exact I1|rewrite I2; apply Nat.eqb_refl]. fold blk. unfold cs at 1. rewrite (filter_rank blk n i Hi). lia. }
  exists cs, num. split; [|split; [|split; [exact LT|split; [|split; [exact CL|split; [|split; [exact NU|]]]]]]].
  - f_equal. unfold tc_lines, t_expected. clear - R CC IC.
    assert (P : forall e, In e es -> conn (t_pairs es) (te_a e) (te_b e)) by (intros e He; apply conn_pair, in_t_pairs; exists e; auto). revert P R. generalize es at 1 3 4 5. intro l.
    induction l as [|e l IH]; intros P R; [reflexivity|]. cbn [flat_map filter]. rewrite IH by (intros e' H'; first [apply P|apply R]; right; exact H'). clear IH.
    destruct (R e (or_introl eq_refl)) as [Ra Rb]. pose proof (CC _ _ (P e (or_introl eq_refl))) as Q. destruct e as [[[a b] c] d]. unfold te_a, te_b in *. cbn [fst snd] in *.
    assert (T : forall v, v < n -> tc_is m (nth v (s_comp s) None) = if in_dec Nat.eq_dec v cs then true else false).
    { intros v Hv. destruct (in_dec Nat.eq_dec v cs) as [I|I]; rewrite IC in I.
      - destruct I as [_ ->]. apply Nat.eqb_refl.
      - destruct (nth v (s_comp s) None) as [q|] eqn:EQ; [|reflexivity]. cbn [tc_is]. apply Nat.eqb_neq. intros ->. apply I. auto. }
    rewrite (T a Ra), (T b Rb). destruct (in_dec Nat.eq_dec a cs), (in_dec Nat.eq_dec b cs); try tauto; cbn [andb app map]; reflexivity.
  - apply sorted_filter_seq.
  - intros NR E0. destruct (A 0 ltac:(lia)) as (c & Q1 & Q2). assert (ML : m < s_cc s) by (rewrite <- LS; apply max_index_ok; intros ->; cbn in LS; lia).
    destruct (NE m ML) as (v & Hv & Q). assert (X : In v cs) by (apply IC; auto). rewrite E0 in X. destruct X.
  - intros ds ND HD. destruct ds as [|x ds]; [cbn; lia|]. destruct (HD x x (or_introl eq_refl) (or_introl eq_refl)) as [Hx _]. destruct (A x Hx) as (c & Q1 & Q2). transitivity (nth c sz 0); [|apply SC]. rewrite SZ'.
    apply NoDup_incl_length; [exact ND|]. intros v Hv. destruct (HD x v (or_introl eq_refl) Hv) as [Lv S]. apply filter_In. split; [apply in_seq; lia|]. apply (B' x v Hx Lv) in S. rewrite <- S, Q1. cbn [has]. apply Nat.eqb_refl.
  - intros i j Hi Hj. replace i with (num (nth (i - 1) cs 0)) by (rewrite NU by lia; lia). replace j with (num (nth (j - 1) cs 0)) by (rewrite NU by lia; lia).
    assert (I : In (nth (i - 1) cs 0) cs) by (apply nth_In; lia). assert (J : In (nth (j - 1) cs 0) cs) by (apply nth_In; lia).
    apply (out_conn es cs num CC); [|exact I]. apply (CL _ _ I (LT _ J)), J.
Qed.
Print Assumptions C92_temporal_cc.

(** seven vertices; 1, 3, 4 and 6 are joined (one edge is deleted later), 0 and 2 are joined, 5 has only a loop *)
Definition c92_es : list tedge := [(3, 1, 2%Z, 10%N); (0, 2, 1%Z, 11%N); (4, 6, 1%Z, 12%N); (5, 5, 1%Z, 13%N); (6, 1, 3%Z, 14%N); (1, 3, (-2)%Z, 15%N); (4, 4, 1%Z, 16%N)].
Example C92_ex : (forall a b c d, In (a, b, c, d) c92_es -> a < 7 /\ b < 7) /\
  temporal_cc 7 c92_es = Some [(2, 1, 2%Z, 10%N); (3, 4, 1%Z, 12%N); (4, 1, 3%Z, 14%N); (1, 2, (-2)%Z, 15%N); (3, 3, 1%Z, 16%N)].
Proof. split; [|vm_compute; reflexivity]. intros a b c d H. cbn in H. repeat (destruct H as [H|H]; [injection H as <- <- _ _; lia|]). destruct H. Qed.

(** the edges that are deleted (negative weight) join vertices as the others do: the lines that are kept need not be connected once all
    of them have been applied *)
Definition c92_del : list tedge := [(0, 1, 1%Z, 1%N); (2, 3, 1%Z, 2%N); (1, 2, 1%Z, 3%N); (1, 2, (-1)%Z, 4%N)].
Definition t_sum (es : list tedge) (a b : nat) : Z :=
  fold_right Z.add 0%Z (map (fun e => let '(x, y, c, _) := e in if ((x =? a) && (y =? b)) || ((x =? b) && (y =? a)) then c else 0%Z) es).
Definition t_final (es : list tedge) : list (nat * nat) := filter (fun p => (0 <? t_sum es (fst p) (snd p))%Z) (t_pairs es).

Theorem C92_deleted_refuted : ~ (forall n es out, (forall a b c d, In (a, b, c, d) es -> a < n /\ b < n) -> temporal_cc n es = Some out ->
  forall x y, In x (map fst (t_pairs out)) -> In y (map fst (t_pairs out)) -> conn (t_final out) x y).
Proof.
  intro H. specialize (H 4 c92_del [(1, 2, 1%Z, 1%N); (3, 4, 1%Z, 2%N); (2, 3, 1%Z, 3%N); (2, 3, (-1)%Z, 4%N)]).
  assert (C : conn (t_final [(1, 2, 1%Z, 1%N); (3, 4, 1%Z, 2%N); (2, 3, 1%Z, 3%N); (2, 3, (-1)%Z, 4%N)]) 1 3).
  { apply H; [|vm_compute; reflexivity|vm_compute; auto|vm_compute; auto]. intros a b c d X. cbn in X. repeat (destruct X as [X|X]; [injection X as <- <- _ _; lia|]). destruct X. }
  assert (I : forall x y, conn (t_final [(1, 2, 1%Z, 1%N); (3, 4, 1%Z, 2%N); (2, 3, 1%Z, 3%N); (2, 3, (-1)%Z, 4%N)]) x y -> (x <= 2 <-> y <= 2)).
  { intros x y X. induction X as [x|x y X|x y _ IH|x y z _ IH1 _ IH2]; [tauto| |tauto|tauto]. vm_compute in X. destruct X as [X|[X|[]]]; injection X as <- <-; lia. }
  specialize (I _ _ C). lia.
Qed.
Print Assumptions C92_deleted_refuted.
