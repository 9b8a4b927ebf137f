(* Prop_AllMincuts.v - property C67: findAllMincuts around the recursive cactus construction. *)
From Verif Require Import SpecRel SpecCut SpecHier SpecPR SpecDyn SpecMutable M_UnionFind P_UnionFind M_Mutable P_Mutable P_Cut P_Contract P_Hier P_PR P_Check M_Noi M_AllMincuts M_LocalSearch P_LocalSearch2 Prop_Mutable P_AllMincuts P_AllMincuts2.

(** the cuts of value c of C are exactly the cuts of value c of G, and C has no smaller cut *)
Definition all_cuts (c : N) (G : graph) (C : mg) : Prop :=
  sound (length G) (wt G) c (m_n C) (wt (adj (m_rows C))) (fun v => nth v (m_pos C) 0) /\
  complete (length G) (wt G) c (m_n C) (wt (adj (m_rows C))) (fun v => nth v (m_pos C) 0) /\
  atleast c (m_n C) (wt (adj (m_rows C))).
(** a well-formed graph object with a position for each of the vertices of G *)
Definition placed (G : graph) (C : mg) : Prop :=
  mvalid C /\ length (m_pos C) = length G /\ forall v, v < length G -> nth v (m_pos C) 0 < m_n C.
(** what is assumed of the recursive construction (recursive_cactus.h flowMincut) *)
Definition solves (rec : graph -> N -> option mg) : Prop := forall H c, undirected H -> noparallel H -> 0 < length H -> (0 < c)%N -> (2 <= length H -> mincut_of H c) ->
  exists C, rec H c = Some C /\ placed H C /\ m_last C = m_n C /\ length (m_cont C) = m_n C /\ all_cuts c H C.

(** C67, full statement: with the minimum cut lambda as start value the result is lambda and a cactus of all minimum cuts. *)
Definition C67_statement : Prop := forall cf rnd nrnd ord nord rec G lambda, (forall k i p l, Permutation (ord k i p l) l) -> (forall r p l, Permutation (nord r p l) l) ->
  undirected G -> noparallel G -> 2 <= length G -> (0 < lambda)%N -> mincut_of G lambda -> (total G + 1 < 2 ^ 32)%N -> solves rec ->
  exists C, find_all_mincuts cf rnd nrnd ord nord rec lambda G = Some (lambda, C) /\ placed G C /\ groups_exact (m_n C) (m_cont C) (m_pos C) /\ all_cuts lambda G C.

(** Partial: it terminates normally, the value is never too small, whenever it is right the cactus is right, and up to 100 vertices it is right.
    Missing: larger graphs, for which the value can be too large (below); a start value above lambda (below). *)
Theorem C67_all_mincuts_partial : forall cf rnd nrnd ord nord rec G lambda, (forall k i p l, Permutation (ord k i p l) l) -> (forall r p l, Permutation (nord r p l) l) ->
  undirected G -> noparallel G -> 2 <= length G -> (0 < lambda)%N -> mincut_of G lambda -> (total G + 1 < 2 ^ 32)%N -> solves rec ->
  exists c C, find_all_mincuts cf rnd nrnd ord nord rec lambda G = Some (c, C) /\ (lambda <= c)%N /\ (length G <= 100 -> c = lambda) /\
    placed G C /\ groups_exact (m_n C) (m_cont C) (m_pos C) /\ (c = lambda -> all_cuts lambda G C).
Proof.
  intros cf rnd nrnd ord nord rec G lambda Po Pn U Np L2 Pl Ml Tot Sv. change (2 ^ 32)%N with 4294967296%N in Tot.
  assert (Lw : low lambda G) by (intros S PS; apply Ml; auto).
  assert (Lt : (lambda <= total G)%N). { destruct Ml as [[S [_ ES]] _]. rewrite <- ES. apply cut_total. auto. }
  destruct (reduce_ok cf G lambda U Pl Lw Np Tot Lt rnd nrnd ord nord (fun k i p l => Po k i p l) (fun r p l => Pn r p l) ltac:(lia)) as (s & b & E & Ch & [PH LH] & NpH & Lc & Mc & Sm).
  pose proof (hier_ok _ _ _ U (chain_hier _ _ _ _ _ _ Ch)) as [UH _].
  destruct (Sv (f_g s) (f_cut s) UH NpH PH ltac:(lia) Mc) as (C0 & E0 & (V0 & LP0 & BP0) & ML0 & LC0 & A0).
  destruct (set_locations_ok lambda G s b C0 Pl U Ch V0 ML0 LC0 LP0 BP0 LH) as (C & E1 & (V & LP & BP & Gr) & R). { intros Q. rewrite <- Q. exact A0. }
  exists (f_cut s), C. unfold find_all_mincuts. rewrite E, E0, E1. split; [auto|]. split; [auto|]. split; [auto|]. split; [split; [auto|split; auto]|]. split; [auto|]. exact R.
Qed.
Print Assumptions C67_all_mincuts_partial.

(** ** the assumption on the recursive construction can be met *)
Definition pairs (n : nat) : list (nat * nat) := flat_map (fun v => map (fun u => (u, v)) (seq 0 v)) (seq 0 n).
(** the graph itself, as a mutable graph *)
Definition itself (H : graph) (c : N) : option mg :=
  option_map m_finish (fold_opt (fun M e => new_edge_order M (fst e) (snd e) (wt H (fst e) (snd e))) (pairs (length H)) (start_construction (length H))).

Lemma cut_pairs n W S : symm n W -> cutw n W S = sumN (fun e => dif S (fst e) (snd e) (W (fst e) (snd e))) (pairs n).
Proof.
  unfold pairs. rewrite sumN_flat_map. induction n as [|n IH]; intro Sy; [reflexivity|].
  rewrite seq_S, sumN_app. cbn [sumN Nat.add]. rewrite <- IH by (intros u v Hu Hv; apply Sy; lia). rewrite N.add_0_r, sumN_map. cbn [fst snd].
  unfold cutw. rewrite bsum_S. rewrite (bsum_ext n (fun u => bsum (Datatypes.S n) _) (fun u => bsum n (fun v => if S u && negb (S v) then W u v else 0) + (if S u && negb (S n) then W u n else 0))%N) by (intros; apply bsum_S).
  rewrite bsum_add, bsum_S. rewrite (andb_negb_r (S n)), N.add_0_r. rewrite <- N.add_assoc. f_equal. rewrite <- bsum_add. unfold bsum. apply sumN_ext. intros u I. apply in_seq in I.
  unfold dif. rewrite (Sy n u) by lia. destruct (S u), (S n); cbn; lia.
Qed.
Lemma add_pairs H : forall es M, mvalid M -> (forall u v, In (u, v) es -> u < m_n M /\ v < m_n M /\ u <> v) ->
  exists M', fold_opt (fun M e => new_edge_order M (fst e) (snd e) (wt H (fst e) (snd e))) es M = Some M' /\ mvalid M' /\ m_n M' = m_n M /\ m_cont M' = m_cont M /\ m_pos M' = m_pos M /\
    forall S, gcut M' S = (gcut M S + sumN (fun e => dif S (fst e) (snd e) (wt H (fst e) (snd e))) es)%N.
Proof.
  induction es as [|[u v] es IH]; intros M V B; cbn [fold_opt].
  - exists M. repeat (split; [auto|]). intro S. cbn. lia.
  - destruct (B u v (or_introl eq_refl)) as (Hu & Hv & Nuv). cbn [fst snd]. destruct (order_cut M u v (wt H u v) V Hu Hv Nuv) as (M1 & E1 & V1 & N1 & C1). rewrite E1.
    destruct (order_fields _ _ _ _ _ E1) as (F1 & _ & F3).
    destruct (IH M1 V1) as (M2 & E2 & V2 & N2 & F2 & F4 & C2). { intros a b I. rewrite N1. apply B. right. auto. }
    exists M2. split; [auto|]. split; [auto|]. split; [lia|]. split; [congruence|]. split; [congruence|]. intro S. rewrite C2, C1. cbn [sumN fst snd]. lia.
Qed.
Lemma itself_ok H c : undirected H -> exists C, itself H c = Some C /\ placed H C /\ m_last C = m_n C /\ length (m_cont C) = m_n C /\ m_n C = length H /\ (forall v, v < length H -> nth v (m_pos C) 0 = v) /\
  forall S, gcut C S = cutw (length H) (wt H) S.
Proof.
  intros U. unfold itself. set (n := length H). destruct (start_cut n) as (V0 & N0 & C0).
  destruct (add_pairs H (pairs n) (start_construction n) V0) as (M & E & V & N1 & F1 & F2 & C1).
  { intros u v I. rewrite N0. unfold pairs in I. apply in_flat_map in I. destruct I as (y & Iy & I). apply in_map_iff in I. destruct I as (x & Ex & Ix). injection Ex as <- <-. apply in_seq in Iy, Ix. lia. }
  rewrite E. cbn [option_map]. exists (m_finish M). rewrite N0 in N1.
  assert (Ps : forall v, v < n -> nth v (m_pos (m_finish M)) 0 = v). { intros v Hv. cbn [m_finish m_pos]. rewrite F2. cbn [start_construction m_pos]. rewrite seq_nth; auto. }
  split; [auto|]. split; [split; [exact V|split]|].
  - cbn [m_finish m_pos]. rewrite F2. apply seq_length.
  - intros v Hv. rewrite Ps by auto. change (m_n (m_finish M)) with (m_n M). lia.
  - split; [reflexivity|]. split; [cbn [m_finish m_cont]; rewrite F1; cbn [start_construction m_cont]; rewrite map_length, seq_length; change (m_n (m_finish M)) with (m_n M); lia|].
    split; [exact N1|]. split; [exact Ps|]. intro S. change (gcut (m_finish M) S) with (gcut M S). rewrite C1, C0, cut_pairs by apply U. lia.
Qed.
Theorem itself_solves : solves itself.
Proof.
  intros H c U Np Ph Pc Mc. destruct (itself_ok H c U) as (C & E & Pl & ML & LC & Nn & Ps & Cut). exists C. split; [auto|]. split; [auto|]. split; [auto|]. split; [auto|]. unfold all_cuts. rewrite Nn.
  assert (Cut' : forall f, cutw (length H) (wt (adj (m_rows C))) f = cutw (length H) (wt H) f) by (intro f; rewrite <- Cut; unfold gcut; rewrite Nn; auto).
  split; [|split].
  - intros f Pf Ef. rewrite Cut' in Ef. split; [eapply proper_ext; [|exact Pf]; intros x Hx; cbn; rewrite Ps; auto|]. rewrite <- Ef. apply cutw_ext. intros x Hx. cbn. rewrite Ps; auto.
  - intros S PS ES. exists S. rewrite Cut'. split; [auto|]. intros x Hx. rewrite Ps; auto.
  - intros f Pf. rewrite Cut'. apply Mc; [|exact Pf]. destruct Pf as [[a [Ha Ea]] [b [Hb Eb]]]. assert (a <> b) by congruence. lia.
Qed.
Print Assumptions itself_solves.

(** ** example: a square 0 1 2 3 of unit edges, a leaf 4 attached to 0 with weight 2, a triangle 5 6 7 attached to 2 by two edges *)
Definition c67_graph : graph := gr [[(1, 1); (3, 1); (4, 2)]; [(0, 1); (2, 1)]; [(1, 1); (3, 1); (5, 1); (6, 1)]; [(0, 1); (2, 1)]; [(0, 2)];
  [(2, 1); (6, 3); (7, 3)]; [(2, 1); (5, 3); (7, 3)]; [(5, 3); (6, 3)]].
Definition c67_run := find_all_mincuts (mk_cfg KDefault false) (fun _ => 0) (fun _ => 0) (fun _ _ _ l => l) (fun _ _ l => l) itself 2 c67_graph.
Lemma c67_mincut : mincut_of c67_graph 2.
Proof. apply (mincut_check _ _ [false; false; false; false; true; false; false; false]); vm_compute; reflexivity. Qed.
Example c67_hyps : undirected c67_graph /\ noparallel c67_graph /\ 2 <= length c67_graph /\ (0 < 2)%N /\ mincut_of c67_graph 2 /\ (total c67_graph + 1 < 2 ^ 32)%N /\ solves itself /\ length c67_graph <= 100.
Proof.
  split; [apply undirectedb_ok; reflexivity|]. split. { intro x. do 8 (destruct x as [|x]; [repeat constructor; cbn; intuition discriminate|]). destruct x; constructor. }
  split; [cbn; lia|]. split; [lia|]. split; [apply c67_mincut|]. split; [vm_compute; reflexivity|]. split; [apply itself_solves|cbn; lia].
Qed.
(** the leaf is contracted away in the first round and put back with weight 2, and the triangle becomes one vertex *)
Example c67_result : option_map (fun r => (fst r, nth 5 (adj (m_rows (snd r))) [], m_pos (snd r), m_cont (snd r))) c67_run =
  Some (2%N, [(0, 2%N)], [0; 1; 2; 3; 5; 4; 4; 4], [[0]; [1]; [2]; [3]; [5; 6; 7]; [4]]).
Proof. vm_compute. reflexivity. Qed.

(** ** a loop that stops early: the last call of noi replaces the value *)
Lemma tree_cut G S : symm (length G) (wt G) -> (forall i, 0 < i < length G -> exists j, j < i /\ (1 <= wt G i j)%N) -> proper (length G) S -> (1 <= cutw (length G) (wt G) S)%N.
Proof.
  intros Sy T [[a [Ha Ea]] [b [Hb Eb]]].
  assert (D : forall i, i < length G -> S i = S 0 \/ (1 <= cutw (length G) (wt G) S)%N).
  { intro i. induction i as [i IH] using lt_wf_ind. intro Hi. destruct (Nat.eq_dec i 0) as [->|Ni]; [auto|]. destruct (T i ltac:(lia)) as (j & Hj & Wj).
    destruct (IH j Hj ltac:(lia)) as [E|]; [|auto]. destruct (Bool.bool_dec (S i) (S j)) as [Q|Q]; [left; congruence|right]. pose proof (sep_weight (length G) (wt G) S i j Sy Hi ltac:(lia) Q). lia. }
  destruct (D a Ha) as [A|A]; [|auto]. destruct (D b Hb) as [B|B]; [|auto]. congruence.
Qed.

(** a cycle of 104 vertices with unit edges, and a leaf attached to the first *)
Definition c67_long : graph := gr ([(1, 1); (103, 1); (104, 1)] :: map (fun i => [((i + 1) mod 104, 1); (i - 1, 1)]) (seq 1 103) ++ [[(0, 1)]]).
Lemma c67_long_ok : undirected c67_long /\ noparallel c67_long /\ mincut_of c67_long 1 /\ (total c67_long + 1 < 2 ^ 32)%N.
Proof.
  assert (U : undirected c67_long) by (apply undirectedb_ok; vm_compute; reflexivity).
  split; [auto|]. split.
  { intro x. assert (A : forallb (fun row : list (nat * N) => match map fst row with [] => true | [a] => true | [a; b] => negb (a =? b) | [a; b; d] => negb (a =? b) && negb (a =? d) && negb (b =? d) | _ => false end) c67_long = true) by (vm_compute; reflexivity).
    rewrite forallb_forall in A. destruct (Nat.lt_ge_cases x (length c67_long)) as [Hx|Hx]; [|rewrite nth_overflow by auto; constructor].
    specialize (A _ (nth_In _ [] Hx)). cbv beta in A. destruct (map fst (nth x c67_long [])) as [|a [|b [|d [|e l]]]]; [constructor|repeat constructor; auto| | |discriminate A].
    - apply negb_true_iff, Nat.eqb_neq in A. repeat constructor; cbn; intuition.
    - apply andb_prop in A. destruct A as [A A3]. apply andb_prop in A. destruct A as [A1 A2]. apply negb_true_iff, Nat.eqb_neq in A1, A2, A3. repeat constructor; cbn; intuition. }
  split; [|vm_compute; reflexivity]. split.
  - exists (fun x => x =? 104). split; [apply proper_single; apply Nat.ltb_lt; vm_compute; reflexivity|]. rewrite <- deg_cut; [vm_compute; reflexivity|auto|]. apply Nat.ltb_lt. vm_compute. reflexivity.
  - intros S PS. apply tree_cut; auto; [apply U|].
    assert (A : forallb (fun i => N.leb 1 (wt c67_long i (if i =? 104 then 0 else i - 1))) (seq 1 104) = true) by (vm_compute; reflexivity).
    rewrite forallb_forall in A. intros i Hi. replace (length c67_long) with 105 in Hi by (vm_compute; reflexivity). specialize (A i ltac:(apply in_seq; lia)). apply N.leb_le in A.
    destruct (Nat.eqb_spec i 104); [exists 0|exists (i - 1)]; split; auto; lia.
Qed.
(** The leaf is the only minimum cut and is contracted away in the first round, which leaves 103 vertices; the second round removes only one,
    which is less than one percent; and noi finds the minimum cut 2 of the rest. *)
Lemma c67_long_value : option_map f_cut (fam_reduce (mk_cfg KDefault false) (fun _ => 0) (fun _ => 0) (fun _ _ _ l => l) (fun _ _ l => l) 1 c67_long) = Some 2%N.
Proof. vm_compute. reflexivity. Qed.
Lemma value_of cf rnd nrnd ord nord rec start G c C : find_all_mincuts cf rnd nrnd ord nord rec start G = Some (c, C) -> exists s, fam_reduce cf rnd nrnd ord nord start G = Some s /\ c = f_cut s.
Proof.
  unfold find_all_mincuts. destruct (fam_reduce cf rnd nrnd ord nord start G) as [s|]; [|discriminate]. destruct (rec (f_g s) (f_cut s)); [|discriminate].
  destruct (set_locations _ _ _); [|discriminate]. intro E. injection E as <- _. exists s. auto.
Qed.
Lemma some_inj (a b : N) : Some a = Some b -> a = b.
Proof. intro E. injection E as <-. auto. Qed.
Theorem C67_value_refuted : ~ C67_statement.
Proof.
  intro X. destruct c67_long_ok as (U & Np & Ml & Tt).
  assert (L2 : 2 <= length c67_long) by (apply Nat.leb_le; vm_compute; reflexivity).
  destruct (X (mk_cfg KDefault false) (fun _ => 0) (fun _ => 0) (fun _ _ _ l => l) (fun _ _ l => l) itself c67_long 1%N (fun k i p l => Permutation_refl l) (fun r p l => Permutation_refl l) U Np L2 eq_refl Ml Tt itself_solves) as (C & E & _).
  destruct (value_of _ _ _ _ _ _ _ _ _ _ E) as (s & Es & Ev). pose proof c67_long_value as V. rewrite Es in V. apply some_inj in V. rewrite V in Ev. discriminate Ev.
Qed.
Print Assumptions C67_value_refuted.

(** ** a start value above the minimum cut: the leaves of that degree are put back as minimum cuts *)
(** two complete graphs on 0 1 2 3 and 4 5 6 7 joined by the edge 0 - 4, and a leaf 8 attached to 0 with weight 3 *)
Definition c67_bad : graph := gr [[(1, 1); (2, 1); (3, 1); (4, 1); (8, 3)]; [(0, 1); (2, 1); (3, 1)]; [(0, 1); (1, 1); (3, 1)]; [(0, 1); (1, 1); (2, 1)];
  [(5, 1); (6, 1); (7, 1); (0, 1)]; [(4, 1); (6, 1); (7, 1)]; [(4, 1); (5, 1); (7, 1)]; [(4, 1); (5, 1); (6, 1)]; [(0, 3)]].
Theorem C67_start_refuted : ~ forall cf rnd nrnd ord nord rec G lambda start, (forall k i p l, Permutation (ord k i p l) l) -> (forall r p l, Permutation (nord r p l) l) ->
  undirected G -> noparallel G -> 2 <= length G <= 100 -> (0 < lambda)%N -> mincut_of G lambda -> (total G + 1 < 2 ^ 32)%N -> solves rec ->
  start = min_degree G ->
  exists C, find_all_mincuts cf rnd nrnd ord nord rec start G = Some (lambda, C) /\ all_cuts lambda G C.
Proof.
  intro X. destruct (X (mk_cfg KDefault false) (fun _ => 0) (fun _ => 0) (fun _ _ _ l => l) (fun _ _ l => l) itself c67_bad 1%N 3%N) as (C & E & So & _); auto.
  - apply undirectedb_ok. reflexivity.
  - intro x. do 9 (destruct x as [|x]; [repeat constructor; cbn; intuition discriminate|]). destruct x; constructor.
  - cbn; lia.
  - lia.
  - apply (mincut_check _ _ [true; true; true; true; false; false; false; false; true]); vm_compute; reflexivity.
  - vm_compute; reflexivity.
  - apply itself_solves.
  - assert (F : match find_all_mincuts (mk_cfg KDefault false) (fun _ => 0) (fun _ => 0) (fun _ _ _ l => l) (fun _ _ l => l) itself 3 c67_bad with
      | Some (c, C) => m_n C = 9 /\ m_pos C = seq 0 9 /\ cutw 9 (wt (adj (m_rows C))) (fun x => x =? 8) = 1%N | None => False end) by (vm_compute; auto).
    rewrite E in F. destruct F as (Fn & Fp & Fc). rewrite Fn in So. destruct (So (fun x => x =? 8)) as [_ Q].
    + apply proper_single; lia.
    + exact Fc.
    + rewrite Fp in Q. vm_compute in Q. discriminate Q.
Qed.
Print Assumptions C67_start_refuted.

(** ** stale groups *)
(** deleteVertex leaves the group of the last vertex behind (C50); if the cactus of the recursion has such a group, a leaf inherits it. *)
Definition stale (H : graph) (c : N) : option mg :=
  option_map (fun M => mk_mg (m_rows M) (m_deg M) (m_part M) (m_cut M) (m_pos M) (m_cont M ++ [[1]]) (m_last M) (m_ne M) (m_pc M) (m_orig M)) (itself H c).
Theorem C67_groups_refuted : exists G C, undirected G /\ mincut_of G 1 /\ 
  (forall H c, undirected H -> exists C, stale H c = Some C /\ placed H C /\ m_last C = m_n C /\ m_n C <= length (m_cont C)) /\
  find_all_mincuts (mk_cfg KDefault false) (fun _ => 0) (fun _ => 0) (fun _ _ _ l => l) (fun _ _ l => l) stale 1 G = Some (1%N, C) /\ ~ groups_exact (m_n C) (m_cont C) (m_pos C).
Proof.
  set (G := gr [[(1, 1)]; [(0, 1); (2, 1)]; [(1, 1)]]).
  destruct (find_all_mincuts (mk_cfg KDefault false) (fun _ => 0) (fun _ => 0) (fun _ _ _ l => l) (fun _ _ l => l) stale 1 G) as [[c C]|] eqn:E; [|vm_compute in E; discriminate E].
  exists G, C. split; [apply undirectedb_ok; reflexivity|]. split; [apply (mincut_check _ _ [true; false; false]); vm_compute; reflexivity|]. split.
  { intros H c' U. destruct (itself_ok H c' U) as (C' & E' & Pl & ML & LC & Nn & _). unfold stale. rewrite E'. eexists. split; [reflexivity|]. split; [exact Pl|]. split; [exact ML|].
    cbn [m_cont]. rewrite app_length, LC. unfold m_n. cbn [m_rows]. lia. }
  vm_compute in E. injection E as <- <-. split; [reflexivity|]. intros [_ Gr]. specialize (Gr 1 1 ltac:(vm_compute; lia)). cbn in Gr.
  destruct (proj1 Gr (or_introl eq_refl)) as [_ Q]. discriminate Q.
Qed.
Print Assumptions C67_groups_refuted.
