(* Prop_Core.v - properties C46 and C57: core numbers and core graphs. *)
From Coq Require Import Permutation Sorted.
From Verif Require Import SpecCore SpecInduced SpecHop M_CoreGraph P_Core P_Core2 P_Contract P_Graph P_Degree Prop_Scc.

Lemma perm_vert nb mx s : kinv nb mx s -> Permutation (k_vert s) (seq 0 (length nb)).
Proof.
  intro I. apply NoDup_Permutation; [|apply seq_NoDup|].
  - apply (NoDup_nth _ 0). rewrite (ki_lv _ _ _ I). intros i j Hi Hj E. destruct (ki_pv _ _ _ I i Hi) as [_ A], (ki_pv _ _ _ I j Hj) as [_ B]. congruence.
  - intro x. rewrite in_seq. split.
    + intro H. apply (In_nth _ _ 0) in H as (i & Hi & <-). rewrite (ki_lv _ _ _ I) in Hi. destruct (ki_pv _ _ _ I i Hi). lia.
    + intros [_ H]. destruct (ki_vp _ _ _ I x H) as [A <-]. apply nth_In. rewrite (ki_lv _ _ _ I). exact A.
Qed.

(** ** C46: batagelj_zaversnik never accesses its vectors out of range; degrees[v] is the core number of v;
    vertices lists all vertices by ascending core number, position is its inverse, and buckets[k] is the first
    position of a vertex of core number at least k *)
Theorem C46_core_numbers : forall nb, both_ends nb -> exists s, batagelj_zaversnik nb = Some s /\
  length (k_deg s) = length nb /\ length (k_pos s) = length nb /\
  (forall v, v < length nb -> core_number nb v (nth v (k_deg s) 0)) /\
  Permutation (k_vert s) (seq 0 (length nb)) /\
  (forall p q, p <= q -> q < length nb -> nth (nth p (k_vert s) 0) (k_deg s) 0 <= nth (nth q (k_vert s) 0) (k_deg s) 0) /\
  (forall v, v < length nb -> nth_error (k_vert s) (nth v (k_pos s) 0) = Some v) /\
  (forall v, v < length nb -> nth v (k_deg s) 0 < length (k_buck s)) /\
  (forall v k, v < length nb -> k < length (k_buck s) -> (nth k (k_buck s) 0 <= nth v (k_pos s) 0 <-> in_core nb k v)).
Proof.
  intros nb [W Y]. destruct (core_ok nb W Y) as (s & mx & E & I & C). exists s. split; [exact E|]. split; [apply (ki_ld _ _ _ I)|]. split; [apply (ki_lp _ _ _ I)|]. split.
  { intros v Hv. split; [apply (C v _ Hv); auto|]. intros k K. apply (C v k Hv). exact K. }
  split; [exact (perm_vert _ _ _ I)|]. split; [exact (ki_sort _ _ _ I)|]. split.
  { intros v Hv. destruct (ki_vp _ _ _ I v Hv) as [A B]. rewrite (nth_error_nth' _ 0) by (rewrite (ki_lv _ _ _ I); exact A). f_equal. exact B. }
  split; [intros v Hv; rewrite (ki_lb _ _ _ I); pose proof (ki_mx _ _ _ I v Hv); lia|].
  intros v k Hv Hk. rewrite (ki_lb _ _ _ I) in Hk. destruct (ki_vp _ _ _ I v Hv) as [A B]. pose proof (bucket_pos nb mx s I k (nth v (k_pos s) 0) ltac:(lia) A) as Q. rewrite B in Q.
  pose proof (C v k Hv) as Q2. change (in_core nb k v) with (exists S, S v = true /\ core_set nb k S). rewrite <- Q2. lia.
Qed.
Print Assumptions C46_core_numbers.

(** ** the core graph *)
Definition targets_of (rows : list (list (nat * N))) : list (list nat) := map (map fst) rows.

Lemma nth_targets rows v : nth v (targets_of rows) [] = map fst (nth v rows []).
Proof. unfold targets_of. change (@nil nat) with (map (@fst nat N) []) at 1. apply map_nth. Qed.

Lemma filter_seq_nth (f : nat -> bool) n v : v < n -> f v = true -> nth (length (filter f (seq 0 v))) (filter f (seq 0 n)) 0 = v.
Proof.
  intros L F. replace n with (v + (1 + (n - v - 1))) by lia. rewrite (seq_app v (1 + (n - v - 1)) 0), filter_app, app_nth2 by lia. rewrite Nat.sub_diag. cbn [plus seq filter]. rewrite F. reflexivity.
Qed.
Lemma filter_seq_lt (f : nat -> bool) n v : v < n -> f v = true -> length (filter f (seq 0 v)) < length (filter f (seq 0 n)).
Proof.
  intros L F. replace n with (v + (1 + (n - v - 1))) by lia. rewrite (seq_app v (1 + (n - v - 1)) 0), filter_app, app_length. cbn [plus seq filter]. rewrite F. cbn [length]. lia.
Qed.
Lemma filter_seq_len (f : nat -> bool) n : length (filter f (seq 0 n)) <= n.
Proof. rewrite <- (seq_length n 0) at 2. induction (seq 0 n) as [|x l IH]; [auto|]. cbn [filter]. destruct (f x); cbn [length]; lia. Qed.
Lemma filter_seq_sorted (f : nat -> bool) : forall n a, StronglySorted lt (filter f (seq a n)).
Proof.
  induction n as [|n IH]; intro a; [constructor|]. cbn [seq filter]. destruct (f a); [|apply IH]. constructor; [apply IH|]. apply Forall_forall. intros x Hx. apply filter_In in Hx as [Hx _]. apply in_seq in Hx. lia.
Qed.

Section CoreGraph.
Context (rows : list (list (nat * N))) (k mx : nat) (s : k_cores).
Let nb := targets_of rows.
Let n := length rows.
Context (U : both_ends nb) (LF : forall v, v < n -> ~ In v (nth v nb [])).
Context (I : kinv nb mx s) (C : forall v j, v < n -> (j <= nth v (k_deg s) 0 <-> in_core nb j v)).
Context (x0 : nat) (Hx0 : x0 < n) (Kx0 : in_core nb k x0).
Let f := core_sel s k.
Let cs := filter f (seq 0 n).

Lemma len_nb : length nb = n. Proof. unfold nb, targets_of. apply map_length. Qed.
Lemma k_mx : k <= mx.
Proof. pose proof (proj2 (C x0 k Hx0) Kx0). pose proof (ki_mx _ _ _ I x0). rewrite len_nb in H0. specialize (H0 Hx0). lia. Qed.
Lemma sel_ok v : v < n -> (f v = true <-> in_core nb k v).
Proof.
  intro Hv. rewrite <- (C v k Hv). unfold f, core_sel. rewrite Nat.leb_le. destruct (ki_vp _ _ _ I v ltac:(rewrite len_nb; exact Hv)) as [A B].
  pose proof (bucket_pos nb mx s I k (nth v (k_pos s) 0) k_mx A) as Q. rewrite B in Q. lia.
Qed.
Lemma in_cs v : In v cs <-> v < n /\ in_core nb k v.
Proof. unfold cs. rewrite filter_In, in_seq. split; intros [A B]; (split; [lia|]); apply (sel_ok v ltac:(lia)); exact B. Qed.

Lemma rev_in v : v < n -> f v = true -> core_rev s k n v < length cs /\ nth (core_rev s k n v) cs 0 = v.
Proof. intros Hv F. unfold core_rev. fold f. rewrite F. split; [apply filter_seq_lt; auto|apply filter_seq_nth; auto]. Qed.
Lemma rev_out v : f v = false -> core_rev s k n v = n.
Proof. intro F. unfold core_rev. fold f. rewrite F. reflexivity. Qed.

Lemma core_row_ok row : (forall t w, In (t, w) row -> t < n) ->
  map (fun e => (nth (fst e) cs 0, snd e)) (core_row s k n row) = filter (fun e => f (fst e)) row /\
  (forall t w, In (t, w) (core_row s k n row) -> t < length cs /\ In (nth t cs 0, w) row).
Proof.
  induction row as [|[t w] row IH]; intro H; [split; [reflexivity|intros t w []]|]. unfold core_row. cbn [flat_map]. fold (core_row s k n row).
  destruct IH as [IH1 IH2]; [intros; eapply H; right; eauto|]. cbn [fst snd filter]. assert (Ht : t < n) by (eapply H; left; eauto). destruct (f t) eqn:F.
  - destruct (rev_in t Ht F) as [A B]. pose proof (filter_seq_len f n) as Q. fold cs in Q. destruct (Nat.eqb_spec (core_rev s k n t) n); [lia|]. cbn [app map fst snd]. rewrite B, IH1. split; [reflexivity|].
    intros t' w' [E|E]; [injection E as <- <-; split; [exact A|left; rewrite B; reflexivity]|]. destruct (IH2 t' w' E). split; [auto|right; auto].
  - rewrite (rev_out t F), Nat.eqb_refl. cbn [app]. rewrite IH1. split; [reflexivity|]. intros t' w' E. destruct (IH2 t' w' E). split; [auto|right; auto].
Qed.

Lemma row_targets v t w : v < n -> In (t, w) (nth v rows []) -> t < n.
Proof. intros Hv H. rewrite <- len_nb. apply (proj1 U v); [rewrite len_nb; exact Hv|]. unfold nb. rewrite nth_targets. change t with (fst (t, w)). apply in_map. exact H. Qed.

Let rs := map (fun v => core_row s k n (nth v rows [])) cs.
Lemma nth_rs i : i < length cs -> nth i rs [] = core_row s k n (nth (nth i cs 0) rows []).
Proof. intro H. unfold rs. rewrite (nth_indep _ [] (core_row s k n (nth 0 rows []))) by (rewrite map_length; exact H). apply (map_nth (fun v => core_row s k n (nth v rows [])) cs 0 i). Qed.
Lemma cs_lt i : i < length cs -> nth i cs 0 < n.
Proof. intro H. apply (nth_In _ 0) in H. apply in_cs in H. tauto. Qed.
Lemma rs_ok : forall u v w, In (v, w) (nth u rs []) -> v < length rs /\ v <> u.
Proof.
  intros u v w H. destruct (Nat.lt_ge_cases u (length cs)) as [L|L]; [|rewrite nth_overflow in H by (unfold rs; rewrite map_length; exact L); destruct H].
  rewrite (nth_rs u L) in H. destruct (core_row_ok (nth (nth u cs 0) rows [])) as [_ Q]; [intros; eapply row_targets; [apply cs_lt; exact L|eauto]|]. destruct (Q v w H) as [A B]. unfold rs. rewrite map_length. split; [exact A|].
  intros ->. apply (LF (nth u cs 0) (cs_lt u L)). unfold nb. rewrite nth_targets. change (nth u cs 0) with (fst (nth u cs 0, w)) at 1. apply in_map. exact B.
Qed.

Lemma core_graph_build m : exists h, build (length rs) m (script_of rs) = Some h /\ c_comp h = false /\ num_nodes h = length cs /\ forall i, i < length cs -> edges_of h i = nth i rs [].
Proof.
  destruct (build_rows m rs rs_ok) as (h & B & A). exists h. split; [exact B|]. split.
  - destruct (build_ok (length rs) m _ (script_legal rs rs_ok)) as (h' & B' & _ & CC). rewrite B in B'. injection B' as <-. exact CC.
  - assert (NN : num_nodes h = length cs). { apply (f_equal (@length _)) in A. unfold adj_of in A. rewrite map_length, seq_length in A. rewrite A. unfold rs. apply map_length. }
    split; [exact NN|]. intros i Hi. rewrite <- A. unfold adj_of. rewrite (nth_indep _ [] (edges_of h 0)) by (rewrite map_length, seq_length, NN; exact Hi). rewrite map_nth, seq_nth by (rewrite NN; exact Hi). reflexivity.
Qed.

Lemma buck_lt : nth k (k_buck s) 0 < n.
Proof. destruct (ki_vp _ _ _ I x0 ltac:(rewrite len_nb; exact Hx0)) as [A _]. rewrite len_nb in A. pose proof (proj2 (sel_ok x0 Hx0) Kx0) as Q. unfold f, core_sel in Q. apply Nat.leb_le in Q. lia. Qed.
Let m := nth (nth (nth k (k_buck s) 0) (k_vert s) 0) (k_deg s) 0.
Let v0 := nth (nth k (k_buck s) 0) (k_vert s) 0.

Lemma v0_ok : v0 < n /\ f v0 = true.
Proof. destruct (ki_pv _ _ _ I _ ltac:(rewrite len_nb; exact buck_lt)) as [A B]. rewrite len_nb in A. split; [exact A|]. unfold f, core_sel, v0. rewrite B. apply Nat.leb_refl. Qed.
Lemma m_le v : v < n -> f v = true -> m <= nth v (k_deg s) 0.
Proof.
  intros Hv F. destruct (ki_vp _ _ _ I v ltac:(rewrite len_nb; exact Hv)) as [A B]. unfold f, core_sel in F. apply Nat.leb_le in F. pose proof (ki_sort _ _ _ I _ _ F A) as Q. rewrite B in Q. exact Q.
Qed.
Lemma m_ge_k : k <= m. Proof. destruct v0_ok as [A B]. apply (C v0 k A), sel_ok; auto. Qed.
Lemma rdeg_ge v : v < n -> f v = true -> m <= length (filter f (nth v nb [])).
Proof.
  intros Hv F. destruct (proj1 (C v m Hv) (m_le v Hv F)) as (T & TV & MT). destruct (MT v TV) as [_ Q]. etransitivity; [exact Q|].
  assert (X : forall u, T u = true -> f u = true). { intros u Tu. assert (Hu : u < n) by (rewrite <- len_nb; apply (MT u Tu)). apply (sel_ok u Hu). apply (C u k Hu). etransitivity; [apply m_ge_k|]. apply (C u m Hu). exists T. auto. }
  clear - X. induction (nth v nb []) as [|u l IH]; [auto|]. cbn [filter]. specialize (X u). destruct (T u), (f u); cbn [length]; try lia; specialize (X eq_refl); discriminate X.
Qed.
Lemma rdeg_tight : exists v, v < n /\ f v = true /\ length (filter f (nth v nb [])) <= m.
Proof.
  destruct v0_ok as [A B].
  destruct (existsb (fun v => f v && (length (filter f (nth v nb [])) <=? m)) (seq 0 n)) eqn:E.
  - apply existsb_exists in E as (v & Hv & E). apply in_seq in Hv. apply andb_true_iff in E as [E1 E2]. apply Nat.leb_le in E2. exists v. repeat split; auto; lia.
  - exfalso. assert (X : S m <= nth v0 (k_deg s) 0); [|unfold m in X; fold v0 in X; lia]. apply (C v0 _ A). exists (fun v => (v <? n) && f v). split; [rewrite (proj2 (Nat.ltb_lt _ _) A); exact B|].
    intros u Fu. apply andb_true_iff in Fu as [Hu Fu]. apply Nat.ltb_lt in Hu. rewrite len_nb. split; [exact Hu|].
    rewrite (filter_ext_in _ f). 2:{ intros w Hw. pose proof (proj1 U u w) as Q. rewrite len_nb in Q. rewrite (proj2 (Nat.ltb_lt _ _) (Q Hu Hw)). reflexivity. }
    destruct (Nat.le_gt_cases (length (filter f (nth u nb []))) m) as [L|L]; [|lia]. exfalso. assert (Q : existsb (fun v => f v && (length (filter f (nth v nb [])) <=? m)) (seq 0 n) = true); [|congruence].
    apply existsb_exists. exists u. split; [apply in_seq; lia|]. rewrite Fu. apply Nat.leb_le. exact L.
Qed.

Lemma unit_sum : (forall v t w, In (t, w) (nth v rows []) -> w = 1%N) -> forall i, i < length cs -> sumN snd (nth i rs []) = N.of_nat (length (filter f (nth (nth i cs 0) nb []))).
Proof.
  intros UW i Hi. rewrite (nth_rs i Hi). pose proof (UW (nth i cs 0)) as UW'. pose proof (row_targets (nth i cs 0)) as RT. specialize (fun t w => RT t w (cs_lt i Hi)).
  unfold nb. rewrite nth_targets. induction (nth (nth i cs 0) rows []) as [|[t w] row IH]; [reflexivity|].
  assert (Ht : t < n) by (eapply RT; left; eauto). pose proof (UW' t w (or_introl eq_refl)) as ->. specialize (IH (fun t w H => UW' t w (or_intror H)) (fun t w H => RT t w (or_intror H))).
  unfold core_row. cbn [flat_map map fst snd filter]. fold (core_row s k n row). destruct (f t) eqn:F.
  - destruct (rev_in t Ht F) as [A B]. pose proof (filter_seq_len f n) as Q. fold cs in Q. destruct (Nat.eqb_spec (core_rev s k n t) n); [lia|]. cbn [app length]. change (1 + sumN snd (core_row s k n row) = N.of_nat (S (length (filter f (map fst row)))))%N. rewrite IH. lia.
  - rewrite (rev_out t F), Nat.eqb_refl. cbn [app]. exact IH.
Qed.

Lemma core_graph_cases : exists h, num_nodes h = length cs /\ (forall i, i < length cs -> edges_of h i = nth i rs []) /\
  (core_graph s k rows = Some (Some h) \/ core_graph s k rows = Some None) /\
  ((forall v t w, In (t, w) (nth v rows []) -> w = 1%N) -> (forall v, v < n -> (N.of_nat (length (nth v rows [])) <= u64max)%N) -> core_graph s k rows = Some (Some h)).
Proof.
  unfold core_graph. fold n. rewrite (ki_lb _ _ _ I), (ki_lv _ _ _ I), (ki_ld _ _ _ I), len_nb. rewrite (proj2 (Nat.ltb_lt k (mx + 1))) by (pose proof k_mx; lia). rewrite (proj2 (Nat.ltb_lt _ n) buck_lt). destruct v0_ok as [A0 B0]. fold v0. rewrite (proj2 (Nat.ltb_lt v0 n) A0). cbn [andb].
  fold f. change (core_list s k n) with cs. fold rs. destruct (core_graph_build (2 * list_sum (map (fun v => nth v (k_deg s) 0) cs))) as (h & -> & CC & NN & EO). unfold get_min_degree. exists (compute_degrees h).
  assert (X : num_nodes (compute_degrees h) = num_nodes h /\ forall i, edges_of (compute_degrees h) i = edges_of h i) by (unfold compute_degrees; rewrite CC; split; reflexivity). destruct X as [X1 X2].
  split; [congruence|]. split; [intros i Hi; rewrite X2; auto|]. split; [destruct (_ =? _)%N; auto|].
  intros UW BW. enough (E : c_min (compute_degrees h) = N.of_nat m) by (rewrite E, (proj2 (N.eqb_eq _ _)); reflexivity).
  unfold compute_degrees. rewrite CC. cbn [c_min]. rewrite NN.
  assert (EQ : forall i, i < length cs -> sum_deg h i = N.of_nat (length (filter f (nth (nth i cs 0) nb [])))) by (intros i Hi; unfold sum_deg; rewrite (EO i Hi); apply unit_sum; auto).
  destruct (fold_min_ok (map (sum_deg h) (seq 0 (length cs))) u64max) as (F1 & F2 & F3). set (mm := fold_left _ _ _) in *.
  destruct rdeg_tight as (v & Hv & Fv & TV). destruct (rev_in v Hv Fv) as [R1 R2].
  assert (UB : (mm <= N.of_nat m)%N). { etransitivity; [apply F2; apply in_map, in_seq; split; [apply Nat.le_0_l|exact R1]|]. rewrite (EQ _ R1), R2. lia. }
  destruct F3 as [F3|F3].
  - rewrite F3 in UB |- *. pose proof (BW v Hv) as Q. pose proof (rdeg_ge v Hv Fv) as Q2. unfold nb in Q2. rewrite nth_targets in Q2.
    assert (Q3 : length (filter f (map fst (nth v rows []))) <= length (nth v rows [])). { clear. induction (nth v rows []) as [|e l IH]; [auto|]. cbn [map filter]. destruct (f (fst e)); cbn [length]; lia. } lia.
  - apply in_map_iff in F3 as (i & E & Hi). apply in_seq in Hi. rewrite <- E in UB |- *. rewrite (EQ i) in UB |- * by lia. pose proof (rdeg_ge (nth i cs 0)) as Q. specialize (Q (cs_lt i ltac:(lia))).
    assert (Fi : f (nth i cs 0) = true) by (apply sel_ok; [apply cs_lt; lia|]; apply in_cs, nth_In; lia). specialize (Q Fi). lia.
Qed.
End CoreGraph.

(** what the core graph has to be: the graph induced by the vertices of the k-core in ascending order *)
Definition is_core_graph (rows : list (list (nat * N))) (k : nat) (h : csr) : Prop := exists cs,
  StronglySorted lt cs /\ (forall v, In v cs <-> v < length rows /\ in_core (targets_of rows) k v) /\ induced rows cs (adj_of h).

Lemma core_graph_facts rows k s : both_ends (targets_of rows) -> (forall v, v < length rows -> ~ In v (nth v (targets_of rows) [])) ->
  batagelj_zaversnik (targets_of rows) = Some s -> (exists v, v < length rows /\ in_core (targets_of rows) k v) ->
  exists h, is_core_graph rows k h /\ (core_graph s k rows = Some (Some h) \/ core_graph s k rows = Some None) /\
  ((forall v t w, In (t, w) (nth v rows []) -> w = 1%N) -> (forall v, v < length rows -> (N.of_nat (length (nth v rows [])) <= u64max)%N) -> core_graph s k rows = Some (Some h)).
Proof.
  intros U LF E (x0 & Hx0 & Kx0). destruct (core_ok _ (proj1 U) (proj2 U)) as (s' & mx & E' & I & C). rewrite E in E'. injection E' as <-. rewrite len_nb in C.
  assert (C' : forall v j, v < length rows -> (j <= nth v (k_deg s) 0 <-> in_core (targets_of rows) j v)) by exact C.
  destruct (core_graph_cases rows k mx s U LF I C' x0 Hx0 Kx0) as (h & NN & EO & R). exists h. split; [|exact R]. exists (filter (core_sel s k) (seq 0 (length rows))).
  split; [apply filter_seq_sorted|]. split; [intro v; eapply in_cs; eauto|]. split; [unfold adj_of; rewrite map_length, seq_length; exact NN|]. intros i Hi.
  unfold adj_of. rewrite (nth_indep _ [] (edges_of h 0)) by (rewrite map_length, seq_length, NN; exact Hi). rewrite map_nth, seq_nth by (rewrite NN; exact Hi). cbn [plus]. rewrite (EO i Hi), nth_rs by exact Hi.
  destruct (core_row_ok rows k s LF C' x0 Hx0 (nth (nth i (filter (core_sel s k) (seq 0 (length rows))) 0) rows [])) as [Q Q2].
  { intros t w H. eapply row_targets; [exact U| |exact H]. eapply cs_lt; eauto. }
  split; [|intros [t w] H; apply (Q2 t w H)].
  rewrite Q. apply filter_ext_in. intros [t w] H. cbn [fst]. assert (Ht : t < length rows) by (eapply row_targets; [exact U| |exact H]; eapply cs_lt; eauto).
  destruct (core_sel s k t) eqn:F.
  - symmetry. apply existsb_exists. exists t. split; [apply filter_In; split; [apply in_seq; lia|exact F]|apply Nat.eqb_refl].
  - symmetry. apply not_true_is_false. intro X. apply existsb_exists in X as (y & Hy & X). apply Nat.eqb_eq in X as <-. apply filter_In in Hy. destruct Hy; congruence.
Qed.

Lemma core_graph_simple rows k h : (forall v, v < length rows -> ~ In v (nth v (targets_of rows) [])) -> is_core_graph rows k h ->
  forall u t w, In (t, w) (nth u (adj_of h) []) -> t < length (adj_of h) /\ t <> u.
Proof.
  intros LF (cs & _ & IC & LN & IN) u t w H. destruct (Nat.lt_ge_cases u (length (adj_of h))) as [L|L]; [|rewrite nth_overflow in H by exact L; destruct H]. rewrite LN in *. destruct (IN u L) as [E1 E2]. split; [apply (E2 _ H)|].
  intros ->. assert (X : In (nth u cs 0, w) (map (fun e => (nth (fst e) cs 0, snd e)) (nth u (adj_of h) []))) by (apply in_map_iff; exists (u, w); auto). rewrite E1 in X. apply filter_In in X as [X _].
  apply (LF (nth u cs 0)); [apply IC, nth_In, L|]. rewrite nth_targets. change (nth u cs 0) with (fst (nth u cs 0, w)) at 1. apply in_map. exact X.
Qed.

(** the result of createCoreGraph: the graph induced in the core graph by a largest connected component *)
Definition is_largest_component (rows : list (list (nat * N))) (g : csr) : Prop := exists cs,
  StronglySorted lt cs /\ induced rows cs (adj_of g) /\ (rows <> [] -> cs <> []) /\ (forall v, In v cs -> v < length rows) /\
  (forall x v, In x cs -> v < length rows -> (In v cs <-> same_scc (targets_of rows) x v)) /\
  (forall ds, NoDup ds -> (forall x v, In x ds -> In v ds -> v < length rows /\ same_scc (targets_of rows) x v) -> length ds <= length cs).

(** ** C57: createCoreGraph for a graph with unit weights *)
Theorem C57_core_graph_partial : forall rows k s, both_ends (targets_of rows) -> (forall v, v < length rows -> ~ In v (nth v (targets_of rows) [])) ->
  (forall v t w, In (t, w) (nth v rows []) -> w = 1%N) -> (forall v, v < length rows -> (N.of_nat (length (nth v rows [])) <= u64max)%N) ->
  batagelj_zaversnik (targets_of rows) = Some s -> (exists v, v < length rows /\ in_core (targets_of rows) k v) ->
  exists h g, create_core_graph s k rows = Some (Some g) /\ is_core_graph rows k h /\ is_largest_component (adj_of h) g.
Proof.
  intros rows k s U LF UW BW E X. destruct (core_graph_facts rows k s U LF E X) as (h & A & _ & B). specialize (B UW BW).
  destruct (C59_largest_scc (adj_of h) (core_graph_simple rows k h LF A)) as (g & cs & EG & Q). exists h, g. unfold create_core_graph. rewrite B, EG. split; [reflexivity|]. split; [exact A|]. exists cs. destruct Q as (Q1 & Q2 & Q3 & Q4 & Q5 & Q6). auto 8.
Qed.
Print Assumptions C57_core_graph_partial.

(** the full statement, for every weighted graph (the kcore program reads weighted graphs) *)
Definition C57_core_graph_statement : Prop := forall rows k s, both_ends (targets_of rows) -> (forall v, v < length rows -> ~ In v (nth v (targets_of rows) [])) ->
  batagelj_zaversnik (targets_of rows) = Some s -> (exists v, v < length rows /\ in_core (targets_of rows) k v) ->
  exists h g, create_core_graph s k rows = Some (Some g) /\ is_core_graph rows k h /\ is_largest_component (adj_of h) g.

(** a triangle of edges of weight 2: exit(1) with "Wrong min degree" *)
Theorem C57_core_graph_refuted : ~ C57_core_graph_statement.
Proof.
  intro H. specialize (H [[(1, 2%N); (2, 2%N)]; [(0, 2%N); (2, 2%N)]; [(0, 2%N); (1, 2%N)]] 2 (mk_kc [2; 2; 2] [0; 1; 2] [0; 1; 2] [0; 0; 0])).
  destruct H as (h & g & E & _).
  - split.
    + intros [|[|[|v]]] w Hv Hw; cbn in Hv, Hw; try lia; repeat destruct Hw as [<-|Hw]; cbn; try lia; destruct Hw.
    + intros [|[|[|u]]] [|[|[|v]]] Hu Hv; cbn in Hu, Hv |- *; try lia; reflexivity.
  - intros [|[|[|v]]] Hv Hw; cbn in Hv, Hw; try lia.
  - vm_compute. reflexivity.
  - exists 0. split; [cbn; lia|]. exists (fun v => v <? 3). split; [reflexivity|]. intros [|[|[|u]]] Hu; cbn in Hu |- *; try discriminate Hu; split; lia.
  - vm_compute in E. discriminate E.
Qed.
Print Assumptions C57_core_graph_refuted.

(** ** a graph with cores 2, 1 and 0 *)
Definition core_ex : list (list (nat * N)) := map (map (fun t => (t, 1%N))) [[1; 2]; [0; 2; 3]; [0; 1; 3; 4]; [1; 2]; [2; 5]; [4]; []].
Example C46_ex : both_ends (targets_of core_ex) /\ (forall v, v < 7 -> ~ In v (nth v (targets_of core_ex) [])) /\
  batagelj_zaversnik (targets_of core_ex) = Some (mk_kc [2; 2; 2; 2; 1; 1; 0] [6; 5; 4; 3; 0; 1; 2] [4; 5; 6; 3; 2; 1; 0] [0; 1; 3; 7; 7]) /\
  (exists h, create_core_graph (mk_kc [2; 2; 2; 2; 1; 1; 0] [6; 5; 4; 3; 0; 1; 2] [4; 5; 6; 3; 2; 1; 0] [0; 1; 3; 7; 7]) 2 core_ex = Some (Some h) /\ map (map fst) (adj_of h) = [[1; 2]; [0; 2; 3]; [0; 1; 3]; [1; 2]]).
Proof.
  split; [|split; [|split]].
  - split.
    + intros v w Hv Hw. assert (Q : forallb (fun v => forallb (fun w => w <? 7) (nth v (targets_of core_ex) [])) (seq 0 7) = true) by (vm_compute; reflexivity).
      rewrite forallb_forall in Q. specialize (Q v ltac:(apply in_seq; cbn in Hv; lia)). rewrite forallb_forall in Q. apply Nat.ltb_lt, Q. exact Hw.
    + intros u v Hu Hv. assert (Q : forallb (fun u => forallb (fun v => count_occ Nat.eq_dec (nth u (targets_of core_ex) []) v =? count_occ Nat.eq_dec (nth v (targets_of core_ex) []) u) (seq 0 7)) (seq 0 7) = true) by (vm_compute; reflexivity).
      rewrite forallb_forall in Q. specialize (Q u ltac:(apply in_seq; cbn in Hu; lia)). rewrite forallb_forall in Q. apply Nat.eqb_eq, Q, in_seq. cbn in Hv. lia.
  - intros v Hv H. assert (Q : forallb (fun v => negb (existsb (Nat.eqb v) (nth v (targets_of core_ex) []))) (seq 0 7) = true) by (vm_compute; reflexivity).
    rewrite forallb_forall in Q. specialize (Q v ltac:(apply in_seq; lia)). apply negb_true_iff in Q. assert (X : existsb (Nat.eqb v) (nth v (targets_of core_ex) []) = true); [|congruence]. apply existsb_exists. exists v. split; [exact H|apply Nat.eqb_refl].
  - vm_compute. reflexivity.
  - eexists. split; vm_compute; reflexivity.
Qed.
