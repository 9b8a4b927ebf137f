(* Prop_Noi.v - properties C12, C13, C14, C15, C20: the NOI minimum cut algorithm and the
   bookkeeping of cuts over levels. *)
From Verif Require Import SpecRel SpecCut SpecHier M_UnionFind P_UnionFind M_Noi P_Cut P_Contract P_Hier P_Capforest P_CapforestW P_Noi P_NoiAny.

(** x and y have the same representative *)
Definition same_set (u : uf) (x y : nat) : Prop :=
  exists u1 u2 r, uf_find u x = Some (u1, r) /\ uf_find u y = Some (u2, r).

Lemma same_set_conn n ps u x y : inv n ps u -> x < n -> y < n -> (same_set u x y <-> conn ps x y).
Proof.
  intros I Hx Hy.
  destruct (find_inv n ps u x I Hx) as (u1 & a & E1 & _ & _ & _ & R1 & _).
  destruct (find_inv n ps u y I Hy) as (u2 & b & E2 & _ & _ & _ & R2 & _).
  rewrite <- (conn_root_iff n ps u x y a b I Hx Hy R1 R2). split.
  - intros (v1 & v2 & r & F1 & F2). rewrite E1 in F1. rewrite E2 in F2. congruence.
  - intros <-. exists u1, u2, a. auto.
Qed.

(** C12, full statement: every bound. *)
Definition C12_statement : Prop := forall cf rnd G c, undirected G -> 0 < length G ->
  exists u, capforest cf rnd G c = Some u /\
    forall x y, x < length G -> y < length G -> same_set u x y -> conn_ge (length G) (wt G) c x y.

(** C12 for all bounds whose queue keys fit the 32-bit key type (with limiting: the bound; without:
    the largest degree).  Missing: larger keys, for which the statement is false (below). *)
Theorem C12_capforest_connectivity_partial : forall cf rnd G c, undirected G -> 0 < length G ->
  (key_limit cf G c < 2 ^ 32)%N ->
  exists u, capforest cf rnd G c = Some u /\
    forall x y, x < length G -> y < length G -> same_set u x y -> conn_ge (length G) (wt G) c x y.
Proof.
  intros cf rnd G c U Hn K. change (2 ^ 32)%N with 4294967296%N in K. destruct (capforest_good cf rnd G c U Hn K) as [u [ps [E [I [P _]]]]].
  exists u. split; [auto|]. intros x y Hx Hy S. apply (same_set_conn (length G) ps u x y I Hx Hy) in S.
  apply (conn_conn_ge _ _ _ ps); auto.
Qed.
Print Assumptions C12_capforest_connectivity_partial.

(** C13, full statement. *)
Definition C13_statement : Prop := forall cf rnd ord G, (forall r p l, Permutation (ord r p l) l) ->
  undirected G -> 2 <= length G -> (total G < 2 ^ 64)%N ->
  exists c marks, noi cf rnd ord G = Some (c, marks) /\ mincut_of G c.

(** C13 for all graphs whose smallest degree (with disable_limiting: whose total weight) is below
    2^32.  Missing: larger weights, for which the statement is false (below). *)
Theorem C13_noi_exact_partial : forall cf rnd ord G, (forall r p l, Permutation (ord r p l) l) ->
  undirected G -> 2 <= length G ->
  (if cfg_nolimit cf then total G < 2 ^ 32 else min_degree G < 2 ^ 32)%N ->
  exists c marks, noi cf rnd ord G = Some (c, marks) /\ mincut_of G c.
Proof.
  intros cf rnd ord G Po U Hn F. change (2 ^ 32)%N with 4294967296%N in F.
  destruct (noi_ok cf rnd ord G Po U Hn) as [c [marks [E [_ M]]]].
  - unfold fits. destruct (cfg_nolimit cf); exact F.
  - exists c, marks. auto.
Qed.
Print Assumptions C13_noi_exact_partial.

(** C14: with a positive bound not above any degree, modified_capforest joins two different vertices,
    whatever the weights, the start vertex and the queue ... *)
Theorem C14_capforest_progress : forall cf rnd G c, undirected G -> 0 < length G ->
  (0 < c)%N -> (forall v, v < length G -> (c <= deg G v)%N) ->
  exists u x y, capforest cf rnd G c = Some u /\ x < length G /\ y < length G /\ x <> y /\ same_set u x y.
Proof.
  intros cf rnd G c U Hn Pc Hd.
  destruct (capforest_ok_w cf G c (N.to_nat (key_limit cf G c)) U) with (rnd := rnd) as [u [ps [E [I Pr]]]].
  - intros v Hv. rewrite N2Nat.id. unfold keyof, key_limit. destruct (cfg_nolimit cf); [apply max_degree_ok; auto|lia].
  - auto.
  - reflexivity.
  - destruct (Pr Pc Hd) as [x [y [N H]]]. destruct (inv_pairs _ _ _ I x y H) as [Hx Hy].
    exists u, x, y. split; [auto|]. split; [auto|]. split; [auto|]. split; [auto|].
    apply (same_set_conn (length G) ps u x y I Hx Hy). apply conn_pair. auto.
Qed.
Print Assumptions C14_capforest_progress.

(** ... so the contraction loop ends within n rounds (the fuel of [noi] is the number of vertices, and
    running out of it would be the answer None). *)
Theorem C14_noi_terminates : forall cf rnd ord G, (forall r p l, Permutation (ord r p l) l) ->
  undirected G -> 2 <= length G -> (min_degree G < u64max)%N ->
  noi_loop (length G) cf rnd ord [] G (min_degree G) (initial_marks G) <> None.
Proof.
  intros cf rnd ord G Po U Hn B. destruct (noi_any cf rnd ord G Po U Hn B) as [c [m [E _]]].
  unfold noi in E. rewrite E. discriminate.
Qed.
Print Assumptions C14_noi_terminates.

(** C15: for weights of any size the marked vertices are a proper non-empty subset and cut exactly
    the returned value. *)
Theorem C15_saved_cut_matches : forall cf rnd ord G, (forall r p l, Permutation (ord r p l) l) ->
  undirected G -> 2 <= length G -> (min_degree G < u64max)%N ->
  exists c marks, noi cf rnd ord G = Some (c, marks) /\ length marks = length G /\
    proper (length G) (fun v => nth v marks false) /\
    cutw (length G) (wt G) (fun v => nth v marks false) = c.
Proof.
  intros cf rnd ord G Po U Hn B. destruct (noi_any cf rnd ord G Po U Hn B) as [c [m [E [M _]]]].
  exists c, m. split; [auto|]. exact M.
Qed.
Print Assumptions C15_saved_cut_matches.

(** C20: for any hierarchy of contractions, marking one vertex x of the last level and mapping back
    gives a proper subset of the input whose cut weight is the degree of x ... *)
Theorem C20_level_vertex_cut : forall G0 maps H x, undirected G0 -> hier G0 maps H -> 2 <= length H -> x < length H ->
  proper (length G0) (fun v => coarse_id maps v =? x) /\
  cutw (length G0) (wt G0) (fun v => coarse_id maps v =? x) = deg H x.
Proof.
  intros G0 maps H x U Hh L Hx. destruct (hier_ok G0 maps H U Hh) as [UH [Cl Ct]]. split.
  - apply (proper_pull _ _ _ (fun p => p =? x) Cl). apply proper_single; auto.
  - rewrite <- (contraction_cut _ _ (coarse_id maps) (length H) (wt H) (fun p => p =? x)) by (auto; apply Cl).
    symmetry. apply deg_cut; auto.
Qed.
Print Assumptions C20_level_vertex_cut.

(** ... and updateCut keeps the marks a cut of the recorded value, which never increases. *)
Theorem C20_update_cut : forall G0 maps H prev marks c' marks', undirected G0 -> hier G0 maps H ->
  (prev <= u64max)%N -> marks_ok G0 marks prev -> update_cut maps H prev marks = (c', marks') ->
  marks_ok G0 marks' c' /\ (c' <= prev)%N /\ (2 <= length H -> forall v, v < length H -> (c' <= deg H v)%N).
Proof. exact update_cut_ok. Qed.
Print Assumptions C20_update_cut.

(** Examples.  Two triangles joined by two light edges: minimum cut 3, smaller than every degree. *)
Definition c13_graph : graph :=
  gr [[(1, 4); (2, 4); (3, 1)]; [(0, 4); (2, 4); (4, 2)]; [(0, 4); (1, 4)];
      [(0, 1); (4, 5); (5, 3)]; [(1, 2); (3, 5); (5, 3)]; [(3, 3); (4, 3)]].
Example c13_undirected : undirected c13_graph.
Proof. apply undirectedb_ok. reflexivity. Qed.
Example c13_mindeg : min_degree c13_graph = 6%N.
Proof. reflexivity. Qed.
Example c13_runs :
  Forall (fun k => exists m, noi (mk_cfg k false) (fun r => r) (fun _ _ l => l) c13_graph = Some (3%N, m)) [KDefault; KBqueue; KHeap; KBstack].
Proof. repeat (apply Forall_cons; [eexists; vm_compute; reflexivity|]). constructor. Qed.
Example c13_nolimit : exists m, noi (mk_cfg KHeap true) (fun _ => 4) (fun _ _ l => rev l) c13_graph = Some (3%N, m) /\ (total c13_graph < 2 ^ 32)%N.
Proof. eexists. split; vm_compute; reflexivity. Qed.
Example c12_joins : exists u, capforest (mk_cfg KDefault false) 0 c13_graph 6 = Some u /\ same_set u 1 2 /\ same_set u 3 5.
Proof. eexists. split; [vm_compute; reflexivity|]. split; eexists _, _, _; split; vm_compute; reflexivity. Qed.
Example c14_degrees : forall v, v < length c13_graph -> (6 <= deg c13_graph v)%N.
Proof.
  intros v Hv. assert (D : forallb (fun v => (6 <=? deg c13_graph v)%N) (seq 0 6) = true) by reflexivity.
  rewrite forallb_forall in D. apply N.leb_le, D, in_seq. simpl in Hv. lia.
Qed.

(** Queue keys are truncated to 32 bits: with degrees of at least 2^32 the scan order is not a maximum
    adjacency order any more, and the result is no minimum cut.  Weights are multiples of 2^30. *)
Definition c13_bad : graph := map (map (fun e => (fst e, (N.of_nat (snd e) * 1073741824)%N)))
  [[(2, 5); (3, 2)]; [(2, 3); (3, 5)]; [(0, 5); (1, 3); (3, 1)]; [(0, 2); (1, 5); (2, 1)]].

Lemma c13_bad_undirected : undirected c13_bad.
Proof. apply undirectedb_ok. reflexivity. Qed.

Theorem C13_noi_exact_refuted : ~ C13_statement.
Proof.
  intro H. destruct (H (mk_cfg KDefault false) (fun _ => 0) (fun _ _ l => l) c13_bad) as [c [marks [E [_ M]]]].
  - intros. apply Permutation_refl.
  - exact c13_bad_undirected.
  - simpl. lia.
  - reflexivity.
  - assert (R : exists m, noi (mk_cfg KDefault false) (fun _ => 0) (fun _ _ l => l) c13_bad = Some (7516192768%N, m)).
    { eexists. vm_compute. reflexivity. }
    destruct R as [m R]. rewrite E in R. injection R as -> _.
    assert (P : proper (length c13_bad) (fun v => (v =? 0) || (v =? 2))).
    { split; [exists 0|exists 1]; simpl; split; auto; lia. }
    specialize (M _ P). vm_compute in M. congruence.
Qed.
Print Assumptions C13_noi_exact_refuted.

Theorem C12_capforest_connectivity_refuted : ~ C12_statement.
Proof.
  intro H. destruct (H (mk_cfg KDefault false) 0 c13_bad 7516192768%N) as [u [E C]].
  - exact c13_bad_undirected.
  - simpl. lia.
  - assert (S : match capforest (mk_cfg KDefault false) 0 c13_bad 7516192768%N with
                | Some u => existsb (fun x => existsb (fun y =>
                    match uf_find u x, uf_find u y with
                    | Some (_, r), Some (_, r') => Nat.eqb r r' && negb (Bool.eqb ((x =? 0) || (x =? 2)) ((y =? 0) || (y =? 2)))
                    | _, _ => false end) (seq 0 4)) (seq 0 4)
                | None => false end = true) by (vm_compute; reflexivity).
    rewrite E in S. apply existsb_exists in S. destruct S as [x [Hx S]]. apply existsb_exists in S. destruct S as [y [Hy S]].
    apply in_seq in Hx, Hy.
    destruct (uf_find u x) as [[u1 r1]|] eqn:F1; [|discriminate]. destruct (uf_find u y) as [[u2 r2]|] eqn:F2; [|discriminate].
    apply andb_prop in S. destruct S as [S1 S2]. apply Nat.eqb_eq in S1. subst r2.
    specialize (C x y ltac:(simpl; lia) ltac:(simpl; lia) ltac:(exists u1, u2, r1; auto) (fun v => (v =? 0) || (v =? 2))).
    apply negb_true_iff in S2. rewrite eqb_false_iff in S2. specialize (C S2). vm_compute in C. congruence.
Qed.
Print Assumptions C12_capforest_connectivity_refuted.

(** C20: two levels of contraction of the graph above, down to the two triangles. *)
Definition c20_mid : graph := gr [[(1, 8); (2, 1); (3, 2)]; [(0, 8)]; [(0, 1); (3, 8)]; [(0, 2); (2, 8)]].
Lemma hier_check G0 maps H m H' : hier G0 maps H -> undirectedb H' = true ->
  forallb (fun v => nth v m 0 <? length H') (seq 0 (length H)) = true ->
  forallb (fun p => existsb (fun v => nth v m 0 =? p) (seq 0 (length H))) (seq 0 (length H')) = true ->
  forallb (fun p => forallb (fun q => (p =? q) ||
    (wt H' p q =? bsum (length H) (fun u => bsum (length H) (fun v => if ((nth u m 0 =? p)%nat && (nth v m 0 =? q)%nat)%bool then wt H u v else 0)))%N)
    (seq 0 (length H'))) (seq 0 (length H')) = true -> hier G0 (maps ++ [m]) H'.
Proof.
  intros Hh U A B C. rewrite forallb_forall in A, B, C. eapply hier_snoc; [exact Hh|apply undirectedb_ok; auto|split|].
  - intros u Hu. apply Nat.ltb_lt, A, in_seq. lia.
  - intros p Hp. specialize (B p ltac:(apply in_seq; lia)). apply existsb_exists in B. destruct B as [u [Hu Eu]].
    apply in_seq in Hu. apply Nat.eqb_eq in Eu. exists u. split; [lia|auto].
  - intros p q Hp Hq N. specialize (C p ltac:(apply in_seq; lia)). rewrite forallb_forall in C. specialize (C q ltac:(apply in_seq; lia)).
    apply orb_prop in C. destruct C as [C|C]; [apply Nat.eqb_eq in C; contradiction|]. apply N.eqb_eq in C. auto.
Qed.
Example c20_hier : hier c13_graph [[0; 0; 1; 2; 3; 2]; [0; 0; 1; 1]] (gr [[(1, 3)]; [(0, 3)]]).
Proof.
  apply (hier_check c13_graph [[0; 0; 1; 2; 3; 2]] c20_mid [0; 0; 1; 1]); [|reflexivity..].
  apply (hier_check c13_graph [] c13_graph [0; 0; 1; 2; 3; 2]); [constructor|reflexivity..].
Qed.
