(* P_Graph.v - proofs about the static graph. *)
From Verif Require Import SpecBuild.

Lemma nth_fill lo x : forall hi l i, nth i (fill l lo hi x) 0 = if (lo <? i) && (i <=? hi) && (i <? length l) then x else nth i l 0.
Proof.
  induction hi as [|h IH]; intros l i.
  - cbn [fill]. destruct (Nat.ltb_spec lo i), (Nat.leb_spec i 0); cbn [andb]; try reflexivity; lia.
  - cbn [fill]. destruct (Nat.ltb_spec lo (S h)) as [L|L].
    + rewrite IH, upd_length, nth_upd.
      destruct (Nat.ltb_spec lo i), (Nat.leb_spec i h), (Nat.leb_spec i (S h)), (Nat.ltb_spec i (length l)),
        (Nat.eqb_spec i (S h)), (Nat.ltb_spec (S h) (length l)); cbn [andb]; try reflexivity; lia.
    + destruct (Nat.ltb_spec lo i), (Nat.leb_spec i (S h)); cbn [andb]; try reflexivity; lia.
Qed.

Lemma fill_length lo x : forall hi l, length (fill l lo hi x) = length l.
Proof.
  induction hi as [|h IH]; intro l; [reflexivity|]. cbn [fill]. destruct (lo <? S h); [rewrite IH, upd_length|]; reflexivity.
Qed.

Definition elist := list (nat * (nat * N)).
Definition cntlt (es : elist) (i : nat) : nat := length (filter (fun e => fst e <? i) es).

Record ginv (n k : nat) (es : elist) (g : csr) : Prop := {
  gi_len : length (c_nodes g) = n + 1;
  gi_edges : c_edges g = map snd es;
  gi_e : c_e g = length es;
  gi_node : c_node g = k;
  gi_comp : c_comp g = false;
  gi_lt : forall e, In e es -> fst e < c_last1 g;
  gi_last : c_last1 g = 0 \/ exists e, In e es /\ fst e + 1 = c_last1 g;
  gi_le : c_last1 g <= n;
  gi_cnt : forall i, i <= c_last1 g -> nth i (c_nodes g) 0 = cntlt es i }.

Lemma ginv_start n m : ginv n 0 [] (start_construction n m).
Proof.
  constructor; simpl; auto; try lia; try contradiction.
  - rewrite repeat_length. reflexivity.
  - intros i Hi. rewrite nth_repeat_lt by lia. unfold cntlt. reflexivity.
Qed.

Lemma cntlt_snoc es e i : cntlt (es ++ [e]) i = cntlt es i + if fst e <? i then 1 else 0.
Proof. unfold cntlt. rewrite filter_app, app_length. simpl. destruct (fst e <? i); reflexivity. Qed.

Lemma cntlt_all es i : (forall e, In e es -> fst e < i) -> cntlt es i = length es.
Proof.
  unfold cntlt. induction es as [|e es IH]; intro H; [reflexivity|]. simpl.
  destruct (Nat.ltb_spec (fst e) i) as [L|L]; [simpl; rewrite IH; auto; intros; apply H; right; auto|].
  specialize (H e (or_introl eq_refl)). lia.
Qed.

Lemma ginv_edge n k es g s t w : ginv n k es g -> s < n -> s <> t -> (forall e, In e es -> fst e <= s) ->
  exists g', new_edge g s t w = Some g' /\ ginv n k (es ++ [(s, (t, w))]) g'.
Proof.
  intros I Hs Ht Hes. unfold new_edge. apply Nat.eqb_neq in Ht. rewrite Ht.
  pose proof (gi_len _ _ _ _ I) as L. rewrite L.
  replace (s + 1 <? n + 1) with true by (symmetry; apply Nat.ltb_lt; lia).
  eexists. split; [reflexivity|].
  assert (LS : c_last1 g <= s + 1).
  { destruct (gi_last _ _ _ _ I) as [E|[e [He E]]]; [lia|]. specialize (Hes e He). lia. }
  set (nodes1 := upd (c_nodes g) (s + 1) (S (c_e g))).
  set (nodes2 := if c_last1 g <? s then fill nodes1 (c_last1 g) s (nth (c_last1 g) nodes1 0) else nodes1).
  assert (N2 : forall i, i <= s + 1 -> nth i nodes2 0 =
     if i =? s + 1 then S (length es) else if i <=? c_last1 g then nth i (c_nodes g) 0 else nth (c_last1 g) (c_nodes g) 0).
  { intros i Hi. unfold nodes2, nodes1. rewrite (gi_e _ _ _ _ I).
    assert (X : forall j, nth j (upd (c_nodes g) (s + 1) (S (length es))) 0 = if j =? s + 1 then S (length es) else nth j (c_nodes g) 0).
    { intro j. rewrite nth_upd, L. replace (s + 1 <? n + 1) with true by (symmetry; apply Nat.ltb_lt; lia).
      rewrite andb_true_r. reflexivity. }
    destruct (Nat.ltb_spec (c_last1 g) s) as [F|F].
    - rewrite nth_fill, upd_length, L, !X.
      destruct (Nat.eqb_spec i (s + 1)), (Nat.leb_spec i (c_last1 g)), (Nat.ltb_spec (c_last1 g) i), (Nat.leb_spec i s), (Nat.ltb_spec i (n + 1)), (Nat.eqb_spec (c_last1 g) (s + 1)); cbn [andb]; try reflexivity; lia.
    - rewrite X. destruct (Nat.eqb_spec i (s + 1)), (Nat.leb_spec i (c_last1 g)); try reflexivity; lia. }
  constructor; cbn [c_nodes c_edges c_e c_node c_comp c_last1].
  - unfold nodes2, nodes1. destruct (c_last1 g <? s); [rewrite fill_length|]; rewrite upd_length; auto.
  - rewrite map_app, (gi_edges _ _ _ _ I). reflexivity.
  - rewrite app_length, (gi_e _ _ _ _ I). simpl. lia.
  - apply (gi_node _ _ _ _ I).
  - apply (gi_comp _ _ _ _ I).
  - intros e He. apply in_app_or in He. destruct He as [He|[<-|[]]]; [specialize (Hes e He); lia|simpl; lia].
  - right. exists (s, (t, w)). split; [apply in_or_app; right; left; auto|reflexivity].
  - lia.
  - intros i Hi. rewrite N2 by auto. rewrite cntlt_snoc. cbn [fst].
    destruct (Nat.eqb_spec i (s + 1)) as [E|E].
    + subst i. replace (s <? s + 1) with true by (symmetry; apply Nat.ltb_lt; lia).
      rewrite cntlt_all; [lia|]. intros e He. specialize (Hes e He). lia.
    + replace (s <? i) with false by (symmetry; apply Nat.ltb_ge; lia). rewrite Nat.add_0_r.
      destruct (Nat.leb_spec i (c_last1 g)); [apply (gi_cnt _ _ _ _ I); auto|].
      rewrite (gi_cnt _ _ _ _ I) by auto. rewrite !cntlt_all; auto; intros e He; pose proof (gi_lt _ _ _ _ I e He); lia.
Qed.

Definition noloop (es : elist) : elist := filter (fun e => negb (fst (snd e) =? fst e)) es.

Lemma build_ops_ok n : forall ops k es g, ginv n k es g ->
  StronglySorted le (map fst (es ++ req_edges ops)) ->
  (forall s t w, In (s, (t, w)) (req_edges ops) -> s < n) ->
  exists g', build_ops g ops = Some g' /\ ginv n (k + req_nodes ops) (es ++ noloop (req_edges ops)) g'.
Proof.
  assert (SS : forall a b x, StronglySorted le (map fst (a ++ x :: b : elist)) ->
     (forall e, In e a -> fst e <= fst x) /\ StronglySorted le (map fst (a ++ b))).
  { intros a b x. induction a as [|y a IH]; simpl; intro H.
    - apply StronglySorted_inv in H. split; [intros e []|apply H].
    - apply StronglySorted_inv in H. destruct H as [H F]. destruct (IH H) as [I1 I2].
      rewrite Forall_forall in F. split.
      + intros e [<-|He]; [|auto]. apply F. rewrite map_app. apply in_or_app. right. left. reflexivity.
      + constructor; [auto|]. rewrite Forall_forall. intros z Hz. apply F. rewrite map_app in *.
        apply in_app_or in Hz. apply in_or_app. destruct Hz; [left; auto|right; right; auto]. }
  induction ops as [|o ops IH]; intros k es g I S R.
  - exists g. unfold req_nodes. simpl. rewrite app_nil_r, Nat.add_0_r. auto.
  - destruct o as [|s t w].
    + cbn [build_ops]. destruct (IH (Datatypes.S k) es (new_node g)) as [g' [B I']]; auto.
      * destruct I. constructor; auto. simpl. congruence.
      * exists g'. split; [auto|]. unfold req_nodes in *. simpl in *. rewrite Nat.add_succ_r. exact I'.
    + cbn [build_ops]. cbn [req_edges] in S. destruct (SS _ _ _ S) as [S1 S2]. cbn [fst] in S1.
      destruct (Nat.eq_dec s t) as [->|N].
      * assert (new_edge g t t w = Some g) as -> by (unfold new_edge; rewrite Nat.eqb_refl; reflexivity).
        destruct (IH k es g I S2) as [g' [B I']]; [intros; eapply R; right; eauto|].
        exists g'. split; [auto|]. simpl. rewrite Nat.eqb_refl. exact I'.
      * destruct (ginv_edge n k es g s t w I) as [g1 [E1 I1]]; auto.
        { apply (R s t w). left. auto. }
        rewrite E1. destruct (IH k (es ++ [(s, (t, w))]) g1 I1) as [g' [B I']].
        { rewrite <- app_assoc. exact S. }
        { intros; eapply R; right; eauto. }
        exists g'. split; [auto|]. simpl. destruct (Nat.eqb_spec t s); [congruence|]. simpl.
        rewrite <- app_assoc in I'. exact I'.
Qed.

Record gfin (n : nat) (es : elist) (g : csr) : Prop := {
  gf_len : length (c_nodes g) = n + 1;
  gf_edges : c_edges g = map snd es;
  gf_lt : forall e, In e es -> fst e < n;
  gf_cnt : forall i, i <= n -> nth i (c_nodes g) 0 = cntlt es i }.

Lemma finish_ok n es g : ginv n n es g -> exists g', finish_construction g = Some g' /\ gfin n es g' /\ c_comp g' = false.
Proof.
  intro I. unfold finish_construction. pose proof (gi_len _ _ _ _ I) as L. rewrite (gi_node _ _ _ _ I), L.
  replace (n <? n + 1) with true by (symmetry; apply Nat.ltb_lt; lia).
  eexists. split; [reflexivity|]. split; [|apply (gi_comp _ _ _ _ I)].
  constructor; cbn [c_nodes c_edges c_comp c_deg].
  - destruct (c_last1 g =? n); [|rewrite fill_length]; auto.
  - apply (gi_edges _ _ _ _ I).
  - intros e He. pose proof (gi_lt _ _ _ _ I e He). pose proof (gi_le _ _ _ _ I). lia.
  - intros i Hi. destruct (Nat.eqb_spec (c_last1 g) n) as [E|E].
    + apply (gi_cnt _ _ _ _ I). lia.
    + rewrite nth_fill, L. destruct (Nat.ltb_spec (c_last1 g) i) as [F|F].
      * replace (i <=? n) with true by (symmetry; apply Nat.leb_le; lia).
        replace (i <? n + 1) with true by (symmetry; apply Nat.ltb_lt; lia). cbn [andb].
        rewrite (gi_cnt _ _ _ _ I) by auto. rewrite !cntlt_all; auto; intros e He; pose proof (gi_lt _ _ _ _ I e He); lia.
      * cbn [andb]. apply (gi_cnt _ _ _ _ I). lia.
Qed.

Lemma sorted_split (es : elist) v : StronglySorted le (map fst es) ->
  es = filter (fun e => fst e <? v) es ++ filter (fun e => fst e =? v) es ++ filter (fun e => v <? fst e) es.
Proof.
  induction es as [|e es IH]; intro H; [reflexivity|]. simpl in H. apply StronglySorted_inv in H.
  destruct H as [H F]. specialize (IH H). rewrite Forall_forall in F.
  assert (F' : forall x, In x es -> fst e <= fst x) by (intros x Hx; apply F, in_map, Hx).
  assert (Z : forall P, (forall x, In x es -> P x = false) -> filter P es = []).
  { intros P HP. clear -HP. induction es as [|x es IH]; [reflexivity|]. simpl. rewrite HP by (left; auto). apply IH. intros; apply HP; right; auto. }
  cbn [filter]. destruct (Nat.ltb_spec (fst e) v), (Nat.eqb_spec (fst e) v), (Nat.ltb_spec v (fst e)); try lia.
  - simpl. f_equal. exact IH.
  - rewrite (Z (fun x => fst x <? v)) in * by (intros x Hx; specialize (F' x Hx); apply Nat.ltb_ge; lia).
    simpl. f_equal. exact IH.
  - rewrite (Z (fun x => fst x <? v)) in * by (intros x Hx; specialize (F' x Hx); apply Nat.ltb_ge; lia).
    rewrite (Z (fun x => fst x =? v)) in * by (intros x Hx; specialize (F' x Hx); apply Nat.eqb_neq; lia).
    simpl. f_equal. exact IH.
Qed.

Lemma cntlt_S es v : cntlt es (v + 1) = cntlt es v + length (filter (fun e => fst e =? v) es).
Proof.
  unfold cntlt. induction es as [|e es IH]; [reflexivity|]. simpl.
  destruct (Nat.ltb_spec (fst e) (v + 1)), (Nat.ltb_spec (fst e) v), (Nat.eqb_spec (fst e) v); simpl; lia.
Qed.

Lemma edges_of_ok n es g v : gfin n es g -> StronglySorted le (map fst es) -> v < n ->
  edges_of g v = map snd (filter (fun e => fst e =? v) es).
Proof.
  intros F S Hv. unfold edges_of, first_edge, first_invalid.
  rewrite !(gf_cnt _ _ _ F) by lia. rewrite (gf_edges _ _ _ F), cntlt_S.
  replace (cntlt es v + length (filter (fun e => fst e =? v) es) - cntlt es v)
    with (length (filter (fun e => fst e =? v) es)) by lia.
  rewrite (sorted_split es v S) at 3. rewrite !map_app.
  unfold cntlt. rewrite <- (map_length snd (filter (fun e => fst e <? v) es)).
  rewrite skipn_app, skipn_all, Nat.sub_diag. simpl.
  rewrite <- (map_length snd (filter (fun e => fst e =? v) es)).
  rewrite firstn_app, firstn_all, Nat.sub_diag. simpl. apply app_nil_r.
Qed.

Lemma ss_filter (P : nat * (nat * N) -> bool) es : StronglySorted le (map fst es) -> StronglySorted le (map fst (filter P es)).
Proof.
  induction es as [|e es IH]; intro H; [exact H|]. simpl in H. apply StronglySorted_inv in H. destruct H as [H F].
  simpl. destruct (P e); [|auto]. simpl. constructor; [auto|]. rewrite Forall_forall in *. intros x Hx.
  apply in_map_iff in Hx. destruct Hx as [y [<- Hy]]. apply filter_In in Hy. apply F, in_map, Hy.
Qed.

Lemma build_ok n m ops : legal n ops -> exists g, build n m ops = Some g /\ gfin n (noloop (req_edges ops)) g /\ c_comp g = false.
Proof.
  intros [L1 [L2 L3]]. unfold build.
  destruct (build_ops_ok n ops 0 [] (start_construction n m) (ginv_start n m)) as [g [B I]]; auto.
  { intros s t w H. apply (L3 s t w H). }
  rewrite B. cbn [Nat.add app] in I. rewrite L1 in I. apply finish_ok. exact I.
Qed.

Lemma req_adj_eq ops v : req_adj ops v = map snd (filter (fun e => fst e =? v) (noloop (req_edges ops))).
Proof.
  unfold req_adj, noloop. f_equal. induction (req_edges ops) as [|e es IH]; [reflexivity|]. simpl.
  destruct (Nat.eqb_spec (fst e) v) as [<-|N]; simpl.
  - destruct (fst (snd e) =? fst e); simpl; [exact IH|]. rewrite Nat.eqb_refl. f_equal. exact IH.
  - destruct (fst (snd e) =? fst e); simpl; [exact IH|]. apply Nat.eqb_neq in N. rewrite N. exact IH.
Qed.

(** edge sources *)
Lemma cntlt_mono es i j : i <= j -> cntlt es i <= cntlt es j.
Proof.
  intro H. induction H; [lia|]. replace (S m) with (m + 1) by lia. rewrite cntlt_S. lia.
Qed.

Lemma edge_source_ok n es g v e : gfin n es g -> v < n -> first_edge g v <= e < first_invalid g v ->
  edge_source g e = v.
Proof.
  intros F Hv He. unfold first_edge, first_invalid in He. rewrite !(gf_cnt _ _ _ F) in He by lia.
  unfold edge_source.
  assert (E : c_nodes g = map (fun i => nth i (c_nodes g) 0) (seq 0 (n + 1))).
  { apply nth_ext_in with 0; [rewrite map_length, seq_length; apply (gf_len _ _ _ F)|].
    intros i Hi. rewrite (gf_len _ _ _ F) in Hi.
    rewrite (nth_indep (map _ _) 0 (nth 0 (c_nodes g) 0)) by (rewrite map_length, seq_length; lia).
    rewrite (map_nth (fun i => nth i (c_nodes g) 0) (seq 0 (n + 1)) 0 i), seq_nth by lia. reflexivity. }
  assert (X : forall l, (forall i, In i l -> i <= n) ->
    length (filter (fun f => f <=? e) (map (fun i => nth i (c_nodes g) 0) l)) = length (filter (fun i => i <=? v) l)).
  { induction l as [|i l IH]; intro H; [reflexivity|]. simpl. rewrite (gf_cnt _ _ _ F) by (apply H; left; auto).
    destruct (Nat.leb_spec i v) as [A|A].
    - pose proof (cntlt_mono es i v A). replace (cntlt es i <=? e) with true by (symmetry; apply Nat.leb_le; lia).
      simpl. f_equal. apply IH. intros; apply H; right; auto.
    - assert (v + 1 <= i) as A' by lia. pose proof (cntlt_mono es _ _ A').
      replace (cntlt es i <=? e) with false by (symmetry; apply Nat.leb_gt; lia).
      apply IH. intros; apply H; right; auto. }
  rewrite E, X by (intros i Hi; apply in_seq in Hi; lia).
  replace (n + 1) with (S v + (n - v)) by lia. rewrite seq_app, filter_app, app_length.
  assert (A1 : filter (fun i => i <=? v) (seq 0 (S v)) = seq 0 (S v)).
  { clear. assert (forall l, (forall i, In i l -> i <= v) -> filter (fun i => i <=? v) l = l) as Q.
    { induction l as [|i l IH]; intro H; [reflexivity|]. simpl. replace (i <=? v) with true by (symmetry; apply Nat.leb_le; apply H; left; auto). f_equal. apply IH. intros; apply H; right; auto. }
    apply Q. intros i Hi. apply in_seq in Hi. lia. }
  assert (A2 : filter (fun i => i <=? v) (seq (0 + S v) (n - v)) = []).
  { clear. assert (forall l, (forall i, In i l -> v < i) -> filter (fun i => i <=? v) l = []) as Q.
    { induction l as [|i l IH]; intro H; [reflexivity|]. simpl. replace (i <=? v) with false by (symmetry; apply Nat.leb_gt; apply H; left; auto). apply IH. intros; apply H; right; auto. }
    apply Q. intros i Hi. apply in_seq in Hi. lia. }
  rewrite A1, A2, seq_length. simpl. lia.
Qed.
