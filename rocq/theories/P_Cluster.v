(* P_Cluster.v - proofs about label propagation, remap_cluster and findTrivialCuts. *)
From Verif Require Import SpecRel SpecCut SpecCluster P_Cut M_Cluster P_Contract.

Record lp_ok (n : nat) (s : lpst) : Prop := {
  lk_h : length (lp_hash s) = n; lk_c : length (lp_cl s) = n; lk_r : forall v, v < n -> nth v (lp_cl s) 0 < n }.

Lemma lp_edge_ok coin n v s mv mb t w : lp_ok n s -> t < n -> mb < n ->
  exists s' mv' mb', lp_edge coin v (s, (mv, mb)) (t, w) = Some (s', (mv', mb')) /\ lp_ok n s' /\ mb' < n /\ lp_cl s' = lp_cl s.
Proof.
  intros [Lh Lc R] Ht Hm. unfold lp_edge.
  rewrite (nth_error_nth' _ 0) by lia. pose proof (R t Ht) as B.
  rewrite (nth_error_nth' _ (0%N, 0)) by lia.
  destruct (nth (nth t (lp_cl s) 0) (lp_hash s) (0%N, 0)) as [f o].
  set (f' := ((if Nat.eqb o v then f else 0) + w)%N). clearbody f'.
  destruct (mv <? f')%N; [|destruct (f' =? mv)%N; [destruct (coin (lp_used s))|]]; eexists _, _, _; (split; [reflexivity|]);
    (split; [constructor; cbn; [rewrite upd_length|..]; auto|]); auto.
Qed.

Lemma lp_edges_ok coin n v : forall es s mv mb, lp_ok n s -> (forall t w, In (t, w) es -> t < n) -> mb < n ->
  exists s' mv' mb', lp_edges coin v (s, (mv, mb)) es = Some (s', (mv', mb')) /\ lp_ok n s' /\ mb' < n /\ lp_cl s' = lp_cl s.
Proof.
  induction es as [|[t w] es IH]; intros s mv mb L R Hm.
  - exists s, mv, mb. auto.
  - cbn [lp_edges]. destruct (lp_edge_ok coin n v s mv mb t w L (R t w (or_introl eq_refl)) Hm) as (s1 & mv1 & mb1 & -> & L1 & Hm1 & E1).
    destruct (IH s1 mv1 mb1 L1 (fun t w H => R t w (or_intror H)) Hm1) as (s2 & mv2 & mb2 & -> & L2 & Hm2 & E2).
    exists s2, mv2, mb2. split; [auto|]. split; [auto|]. split; [auto|congruence].
Qed.

Lemma lp_round_ok coin G : undirected G -> forall vs s, lp_ok (length G) s -> (forall v, In v vs -> v < length G) ->
  exists s', lp_round coin G s vs = Some s' /\ lp_ok (length G) s'.
Proof.
  intros U. induction vs as [|v vs IH]; intros s L R; [exists s; auto|].
  assert (Hv : v < length G) by (apply R; left; auto).
  cbn [lp_round]. rewrite (nth_error_nth' _ 0) by (rewrite (lk_c _ _ L); auto). rewrite (nth_error_nth' _ []) by auto.
  destruct (lp_edges_ok coin (length G) v (nth v G []) s 0%N (nth v (lp_cl s) 0) L) as (s1 & mv1 & mb1 & -> & L1 & Hm1 & _).
  - intros t w H. apply (proj1 U v t w H).
  - apply (lk_r _ _ L). auto.
  - apply IH; [|intros x Hx; apply R; right; auto]. destruct L1 as [A B C]. constructor; cbn; auto.
    + rewrite upd_length. auto.
    + intros x Hx. rewrite nth_upd. destruct ((x =? v) && (v <? length (lp_cl s1))); auto.
Qed.

Lemma propagate_ok coin perm G : undirected G -> (forall v, In v perm -> v < length G) ->
  exists cl, propagate_labels coin perm G = Some cl /\ length cl = length G /\ forall c, In c cl -> c < length G.
Proof.
  intros U R. unfold propagate_labels.
  destruct (lp_round_ok coin G U perm (mk_lp (repeat (0%N, 0) (length G)) (seq 0 (length G)) 0)) as (s1 & -> & L1); auto.
  { constructor; cbn; [apply repeat_length|apply seq_length|]. intros v Hv. rewrite seq_nth by auto. auto. }
  destruct (lp_round_ok coin G U perm s1 L1 R) as (s2 & -> & [A B C]).
  exists (lp_cl s2). split; [auto|]. split; [auto|]. intros c Hc. apply (In_nth _ _ 0) in Hc. destruct Hc as [i [Hi <-]]. apply C. lia.
Qed.

(** remap: what is known after the first v entries *)
Record rm_inv (n : nat) (cl : list nat) (v : nat) (part : list (option nat)) (mapping : list nat) (rev : list (list nat)) : Prop := {
  rm_p : length part = n;
  rm_m : length mapping = v;
  rm_1 : forall x, x < v -> nth (nth x cl 0) part None = Some (nth x mapping 0) /\ nth x mapping 0 < length rev;
  rm_2 : forall c p, nth c part None = Some p -> p < length rev /\ exists x, x < v /\ nth x cl 0 = c /\ nth x mapping 0 = p;
  rm_3 : forall p, p < length rev -> exists x, x < v /\ nth x mapping 0 = p;
  rm_r : forall p, p < length rev -> nth p rev [] = filter (fun x => nth x mapping 0 =? p) (seq 0 v);
  rm_inj : forall c c' p, nth c part None = Some p -> nth c' part None = Some p -> c = c' }.

Lemma skipn_next {A} v (l : list A) c r : skipn v l = c :: r -> skipn (S v) l = r.
Proof.
  revert l. induction v as [|v IH]; intros [|a l] E; try discriminate; [simpl in *; congruence|]. apply (IH l). exact E.
Qed.

Lemma filter_nil_iff {A} (f : A -> bool) l : filter f l = [] <-> forall x, In x l -> f x = false.
Proof.
  induction l as [|a l IH]; simpl; [split; [intros _ x []|auto]|]. destruct (f a) eqn:E.
  - split; [discriminate|]. intro H. rewrite H in E by auto. discriminate.
  - rewrite IH. split; [intros H x [<-|Hx]; auto|auto].
Qed.

Lemma filter_snoc_eq mapping v p q : length mapping = v ->
  filter (fun x => nth x (mapping ++ [q]) 0 =? p) (seq 0 (S v)) =
  filter (fun x => nth x mapping 0 =? p) (seq 0 v) ++ (if q =? p then [v] else []).
Proof.
  intro L. rewrite seq_S, filter_app. cbn [plus filter]. rewrite app_nth2 by lia. rewrite L, Nat.sub_diag. cbn [nth].
  f_equal. apply filter_ext_in. intros x Hx. apply in_seq in Hx. rewrite app_nth1 by lia. reflexivity.
Qed.

Lemma nth_snoc_eq {A} (l : list A) a d v : length l = v -> nth v (l ++ [a]) d = a.
Proof. intros <-. rewrite app_nth2 by lia. rewrite Nat.sub_diag. reflexivity. Qed.

Lemma remap_loop_ok n cl0 : length cl0 = n -> (forall c, In c cl0 -> c < n) ->
  forall cl v part mapping rev, rm_inv n cl0 v part mapping rev -> skipn v cl0 = cl -> v <= n ->
  exists mapping' rev' part', remap_loop part mapping rev v cl = Some (mapping', rev') /\ rm_inv n cl0 n part' mapping' rev'.
Proof.
  intros L0 R0. induction cl as [|c cl IH]; intros v part mapping rev I E Hv.
  - cbn [remap_loop]. exists mapping, rev, part. split; [auto|].
    assert (v = n) as <-; [|auto]. assert (length (skipn v cl0) = 0) by (rewrite E; auto). rewrite skipn_length in H. lia.
  - assert (Hlt : v < n). { assert (length (skipn v cl0) = S (length cl)) by (rewrite E; auto). rewrite skipn_length in H. lia. }
    assert (Ec : nth v cl0 0 = c).
    { rewrite <- (firstn_skipn v cl0) at 1. rewrite E, app_nth2; rewrite firstn_length_le by lia; [|lia]. rewrite Nat.sub_diag. reflexivity. }
    assert (Es : skipn (S v) cl0 = cl).
    { eapply skipn_next; eauto. }
    assert (Hc : c < n). { apply R0. rewrite <- Ec. apply nth_In. lia. }
    destruct I as [Ip Im I1 I2 I3 Ir Ij].
    cbn [remap_loop]. rewrite (nth_error_nth' _ None) by lia.
    destruct (nth c part None) as [p|] eqn:Ep.
    + destruct (I2 c p Ep) as [Hp [x0 [Hx0 [Ex0 Ex0']]]]. apply IH; auto. constructor; auto.
      * rewrite app_length. simpl. lia.
      * intros x Hx. rewrite upd_length. destruct (Nat.eq_dec x v) as [->|Nx].
        -- rewrite nth_snoc_eq by auto. rewrite Ec. auto.
        -- rewrite app_nth1 by lia. apply I1. lia.
      * intros d q Eq. rewrite upd_length. destruct (I2 d q Eq) as [Hq [x [Hx [Ex Ex']]]]. split; [auto|].
        exists x. rewrite app_nth1 by lia. split; [lia|auto].
      * intros q Hq. rewrite upd_length in Hq. destruct (I3 q Hq) as [x [Hx Ex]]. exists x. rewrite app_nth1 by lia. split; [lia|auto].
      * intros q Hq. rewrite upd_length in Hq. rewrite filter_snoc_eq by auto. rewrite nth_upd, <- Ir by auto.
        destruct (Nat.eqb_spec q p) as [->|Nq].
        -- rewrite Nat.eqb_refl. apply Nat.ltb_lt in Hp. rewrite Hp. reflexivity.
        -- destruct (Nat.eqb_spec p q); [congruence|]. cbn [andb]. rewrite app_nil_r. reflexivity.
    + apply IH; auto.
      assert (Fresh : forall x, x < v -> nth x cl0 0 <> c).
      { intros x Hx X. destruct (I1 x Hx) as [A _]. rewrite X, Ep in A. discriminate. }
      constructor.
      * rewrite upd_length. auto.
      * rewrite app_length. simpl. lia.
      * intros x Hx. rewrite app_length. cbn [length]. destruct (Nat.eq_dec x v) as [->|Nx].
        -- rewrite nth_snoc_eq by auto. rewrite Ec. rewrite nth_upd_eq by lia. split; [reflexivity|lia].
        -- rewrite app_nth1 by lia. rewrite nth_upd_neq by (apply Fresh; lia). destruct (I1 x ltac:(lia)). split; [auto|lia].
      * intros d q Eq. rewrite app_length. cbn [length]. destruct (Nat.eq_dec d c) as [->|Nd].
        -- rewrite nth_upd_eq in Eq by lia. injection Eq as <-. split; [lia|]. exists v. rewrite nth_snoc_eq by auto. split; [lia|auto].
        -- rewrite nth_upd_neq in Eq by auto. destruct (I2 d q Eq) as [Hq [x [Hx [Ex Ex']]]]. split; [lia|].
           exists x. rewrite app_nth1 by lia. split; [lia|auto].
      * intros q Hq. rewrite app_length in Hq. cbn [length] in Hq. destruct (Nat.eq_dec q (length rev)) as [->|Nq].
        -- exists v. rewrite nth_snoc_eq by auto. split; [lia|auto].
        -- destruct (I3 q ltac:(lia)) as [x [Hx Ex]]. exists x. rewrite app_nth1 by lia. split; [lia|auto].
      * intros q Hq. rewrite app_length in Hq. cbn [length] in Hq. rewrite filter_snoc_eq by auto.
        destruct (Nat.eq_dec q (length rev)) as [->|Nq].
        -- rewrite nth_snoc_eq by auto. rewrite Nat.eqb_refl.
           rewrite (proj2 (filter_nil_iff _ _)); [reflexivity|]. intros x Hx. apply in_seq in Hx. apply Nat.eqb_neq.
           destruct (I1 x ltac:(lia)). lia.
        -- rewrite app_nth1 by lia. destruct (Nat.eqb_spec (length rev) q); [congruence|]. rewrite app_nil_r. apply Ir. lia.
      * intros d d' q E1 E2. destruct (Nat.eq_dec d c) as [->|Nd], (Nat.eq_dec d' c) as [->|Nd']; auto.
        -- rewrite nth_upd_eq in E1 by lia. rewrite nth_upd_neq in E2 by auto. injection E1 as <-. destruct (I2 d' _ E2). lia.
        -- rewrite nth_upd_eq in E2 by lia. rewrite nth_upd_neq in E1 by auto. injection E2 as <-. destruct (I2 d _ E1). lia.
        -- rewrite nth_upd_neq in E1, E2 by auto. eapply Ij; eauto.
Qed.

Theorem remap_ok G cl : length cl = length G -> (forall c, In c cl -> c < length G) ->
  exists mapping rev, remap_cluster G cl = Some (mapping, rev) /\ clusters (length G) mapping rev /\
    forall x y, x < length G -> y < length G -> (nth x mapping 0 = nth y mapping 0 <-> nth x cl 0 = nth y cl 0).
Proof.
  intros L R. unfold remap_cluster.
  destruct (remap_loop_ok (length G) cl L R cl 0 (repeat None (length G)) [] []) as (mapping & rev & part & -> & I); auto; [|lia|].
  - assert (N0 : forall c, nth c (repeat (@None nat) (length G)) None = None).
    { intro c. destruct (Nat.lt_ge_cases c (length G)); [apply nth_repeat_lt; auto|apply nth_overflow; rewrite repeat_length; auto]. }
    constructor; cbn.
    + apply repeat_length.
    + reflexivity.
    + intros; lia.
    + intros c p X. rewrite N0 in X. discriminate.
    + intros; lia.
    + intros; lia.
    + intros c c' p X. rewrite N0 in X. discriminate.
  - exists mapping, rev. split; [auto|]. destruct I as [Ip Im I1 I2 I3 Ir Ij]. split; [constructor; auto|].
    + split; [intros u Hu; apply I1; auto|auto].
    + intros x y Hx Hy. destruct (I1 x Hx) as [A _]. destruct (I1 y Hy) as [B _]. split; intro E.
      * rewrite <- E in B. eapply Ij; eauto.
      * rewrite E in A. congruence.
Qed.

Lemma clusters_le n mapping rev : clusters n mapping rev -> length rev <= n.
Proof.
  intros [_ [_ Su] _]. rewrite <- (seq_length n 0), <- (map_length (fun v => nth v mapping 0)).
  rewrite <- (seq_length (length rev) 0). apply NoDup_incl_length; [apply seq_NoDup|].
  intros p Hp. apply in_seq in Hp. destruct (Su p ltac:(lia)) as [u [Hu <-]]. apply (in_map (fun v => nth v mapping 0)). apply in_seq. lia.
Qed.

Lemma trivial_block_idx G mapping p : forall members i best bd best' bd',
  trivial_block G mapping p i best bd members = (best', bd') ->
  best' = best \/ (i <= snd best' < i + length members).
Proof.
  induction members as [|v ms IH]; intros i best bd best' bd' E; cbn [trivial_block] in E.
  - left. congruence.
  - destruct (fold_left _ _ _) as [nd bd1]. apply IH in E. cbn [length]. destruct E as [E|E]; [|right; lia].
    destruct (nd <? fst best)%Z; [right; rewrite E; simpl; lia|left; auto].
Qed.

Lemma filter_true {A} (l : list A) : filter (fun _ => true) l = l.
Proof. induction l; simpl; congruence. Qed.
Lemma filter_one (l : list nat) b : NoDup l -> In b l -> filter (fun v => v =? b) l = [b].
Proof.
  induction l as [|a l IH]; intros ND Hb; [contradiction|]. apply NoDup_cons_iff in ND. destruct ND as [Na ND]. cbn [filter].
  destruct (Nat.eqb_spec a b) as [->|Nab].
  - f_equal. apply filter_nil_iff. intros x Hx. apply Nat.eqb_neq. intros ->. contradiction.
  - destruct Hb as [->|Hb]; [congruence|]. auto.
Qed.
Lemma filter_filter {A} (f g : A -> bool) l : filter f (filter g l) = filter (fun x => g x && f x) l.
Proof. induction l as [|a l IH]; [reflexivity|]. simpl. destruct (g a); simpl; [destruct (f a)|]; rewrite IH; reflexivity. Qed.

Lemma remove_nth (l : list nat) i : NoDup l -> i < length l ->
  firstn i l ++ skipn (S i) l = filter (fun v => negb (v =? nth i l 0)) l.
Proof.
  revert i. induction l as [|a l IH]; intros i ND Hi; [simpl in Hi; lia|].
  apply NoDup_cons_iff in ND. destruct ND as [Na ND]. destruct i as [|i].
  - cbn. rewrite Nat.eqb_refl. cbn. symmetry. rewrite <- (filter_true l) at 2. apply filter_ext_in.
    intros x Hx. apply negb_true_iff, Nat.eqb_neq. intros ->. contradiction.
  - cbn [length] in Hi. cbn [firstn nth app filter]. change (skipn (S (S i)) (a :: l)) with (skipn (S i) l).
    rewrite IH by (auto; lia). destruct (Nat.eqb_spec a (nth i l 0)) as [->|]; [|reflexivity].
    exfalso. apply Na. apply nth_In. lia.
Qed.

Lemma split_ok n mapping rev p idx : clusters n mapping rev -> p < length rev -> idx < length (nth p rev []) ->
  1 < length (nth p rev []) ->
  clusters n (upd mapping (nth idx (nth p rev []) 0) (length rev))
    (upd rev p (firstn idx (nth p rev []) ++ skipn (S idx) (nth p rev [])) ++ [[nth idx (nth p rev []) 0]]).
Proof.
  intros [Lm [Rg Su] Rv] Hp Hi H1. set (ms := nth p rev []) in *. set (b := nth idx ms 0).
  assert (Ems : ms = filter (fun v => nth v mapping 0 =? p) (seq 0 n)) by (apply Rv; auto).
  assert (ND : NoDup ms) by (rewrite Ems; apply NoDup_filter, seq_NoDup).
  assert (Ib : In b ms) by (apply nth_In; auto).
  assert (Hb : b < n /\ nth b mapping 0 = p).
  { rewrite Ems in Ib. apply filter_In in Ib. destruct Ib as [A B]. apply in_seq in A. apply Nat.eqb_eq in B. lia. }
  destruct Hb as [Hb Mb]. rewrite remove_nth by auto. fold b.
  assert (Nu : forall x, nth x (upd mapping b (length rev)) 0 = if x =? b then length rev else nth x mapping 0).
  { intro x. rewrite nth_upd. rewrite Lm. replace (b <? n) with true by (symmetry; apply Nat.ltb_lt; auto). rewrite andb_true_r. reflexivity. }
  constructor.
  - rewrite upd_length. auto.
  - rewrite app_length, upd_length. cbn [length]. split.
    + intros u Hu. rewrite Nu. destruct (u =? b); [lia|]. specialize (Rg u Hu). cbn beta in Rg. lia.
    + intros q Hq. destruct (Nat.eq_dec q (length rev)) as [->|Nq].
      * exists b. split; [auto|]. rewrite Nu, Nat.eqb_refl. reflexivity.
      * destruct (Nat.eq_dec q p) as [->|Nqp].
        -- assert (exists c, In c ms /\ c <> b) as [c [Ic Nc]].
           { destruct ms as [|x [|y ms']]; [simpl in H1; lia|simpl in H1; lia|].
             destruct (Nat.eq_dec x b) as [Ex|Nx]; [|exists x; split; [left; auto|auto]].
             exists y. split; [right; left; auto|]. intros Ey. apply NoDup_cons_iff in ND. apply (proj1 ND). left. congruence. }
           exists c. rewrite Ems in Ic. apply filter_In in Ic. destruct Ic as [A B]. apply in_seq in A. apply Nat.eqb_eq in B.
           split; [lia|]. rewrite Nu. apply Nat.eqb_neq in Nc. rewrite Nc. auto.
        -- destruct (Su q ltac:(lia)) as [u [Hu Eu]]. exists u. split; [auto|]. rewrite Nu.
           destruct (Nat.eqb_spec u b) as [->|]; [congruence|auto].
  - intros q Hq. rewrite app_length, upd_length in Hq. cbn [length] in Hq.
    rewrite (filter_ext (fun v => nth v (upd mapping b (length rev)) 0 =? q) (fun v => if v =? b then length rev =? q else nth v mapping 0 =? q))
      by (intro v; rewrite Nu; destruct (v =? b); reflexivity).
    destruct (Nat.eq_dec q (length rev)) as [->|Nq].
    + rewrite app_nth2 by (rewrite upd_length; lia). rewrite upd_length, Nat.sub_diag. cbn [nth].
      rewrite Nat.eqb_refl.
      rewrite (filter_ext_in _ (fun v => v =? b)).
      * symmetry. apply filter_one; auto. apply seq_NoDup. apply in_seq. lia.
      * intros v Hv. apply in_seq in Hv. destruct (v =? b); [reflexivity|]. apply Nat.eqb_neq. specialize (Rg v ltac:(lia)). cbn beta in Rg. lia.
    + rewrite app_nth1 by (rewrite upd_length; lia). rewrite nth_upd.
      assert (Eq : length rev =? q = false) by (apply Nat.eqb_neq; lia). rewrite Eq.
      destruct (Nat.eqb_spec q p) as [->|Nqp].
      * replace (p <? length rev) with true by (symmetry; apply Nat.ltb_lt; auto). cbn [andb]. rewrite Ems, filter_filter.
        apply filter_ext. intro v. destruct (v =? b); cbn; [apply andb_false_r|]. rewrite andb_true_r. reflexivity.
      * cbn [andb]. rewrite Rv by lia. apply filter_ext. intro v. destruct (Nat.eqb_spec v b) as [->|]; [|reflexivity].
        rewrite Mb. apply Nat.eqb_neq. auto.
Qed.

Lemma trivial_loop_ok G : forall fuel mapping rev target p, clusters (length G) mapping rev ->
  (length G - length rev) + (length rev - p) + (length G - length rev) <= fuel ->
  exists mapping' rev', trivial_loop fuel G mapping rev target p = Some (mapping', rev') /\
    clusters (length G) mapping' rev' /\ length rev <= length rev'.
Proof.
  induction fuel as [|fuel IH]; intros mapping rev target p C F; cbn [trivial_loop].
  - destruct (Nat.ltb_spec p (length rev)); [lia|]. exists mapping, rev. auto.
  - destruct (Nat.ltb_spec p (length rev)) as [Hp|Hp]; [|exists mapping, rev; auto].
    destruct (length (nth p rev []) <? Nat.log2_up (length G)); [|apply IH; auto; lia].
    destruct (trivial_block G mapping p 0 (0%Z, 0) 0%Z (nth p rev [])) as [[improve idx] bd] eqn:E.
    destruct ((improve <? 0)%Z && (bd + improve <? target)%Z && (1 <? length (nth p rev []))) eqn:T; [|apply IH; auto; lia].
    rewrite !andb_true_iff in T. destruct T as [[T1 _] T2]. apply Z.ltb_lt in T1. apply Nat.ltb_lt in T2.
    assert (Hi : idx < length (nth p rev [])).
    { apply trivial_block_idx in E. destruct E as [E|E]; [injection E as -> ->; lia|]. simpl in E. lia. }
    pose proof (split_ok (length G) mapping rev p idx C Hp Hi T2) as C'.
    pose proof (clusters_le _ _ _ C') as Lr. rewrite app_length, upd_length in Lr. cbn [length] in Lr.
    destruct (IH _ _ (to_int32 (bd + improve)) p C') as (m' & r' & -> & C2 & L2).
    + rewrite app_length, upd_length. cbn [length]. lia.
    + exists m', r'. split; [auto|]. split; [auto|]. rewrite app_length, upd_length in L2. lia.
Qed.

Theorem find_trivial_ok G mapping rev cut : clusters (length G) mapping rev ->
  exists mapping' rev', find_trivial_cuts G mapping rev cut = Some (mapping', rev') /\ clusters (length G) mapping' rev'.
Proof.
  intros C. unfold find_trivial_cuts. pose proof (clusters_le _ _ _ C).
  destruct (trivial_loop_ok G (2 * length G + 1) mapping rev (to_int32 (Z.of_N cut)) 0 C ltac:(lia)) as (m & r & E & C' & _).
  exists m, r. auto.
Qed.
