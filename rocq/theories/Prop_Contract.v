(* Prop_Contract.v - properties C10 and C11: contraction of static graphs. *)
From Verif Require Import SpecRel SpecCut M_UnionFind P_UnionFind SpecBuild P_Graph M_Contract P_Contract P_Cut.

(** C10 for fromUnionFind on the graph object: after any history of unions, the contracted object has
    one vertex per set, is again undirected, and every vertex subset S of it has the same cut weight
    as the vertices of the input whose set belongs to S. *)
Theorem C10_contraction_preserves_cuts : forall ord g os u rs,
  (forall p l, Permutation (ord p l) l) -> undirected (adj_of g) ->
  Forall (op_lt (num_nodes g)) os -> uf_run (uf_init (num_nodes g)) os = Some (u, rs) ->
  exists h f, from_union_find_csr ord g u = Some h /\
    classes (num_nodes g) (conn (pairs_of os)) (num_nodes h) /\ undirected (adj_of h) /\
    clustering (num_nodes g) f (num_nodes h) /\
    (forall x y, x < num_nodes g -> y < num_nodes g -> (f x = f y <-> conn (pairs_of os) x y)) /\
    forall S, cutw (num_nodes h) (wt (adj_of h)) S = cutw (num_nodes g) (wt (adj_of g)) (fun v => S (f v)).
Proof.
  intros ord g os u rs Po U Hos E.
  assert (LG : length (adj_of g) = num_nodes g) by (unfold adj_of; rewrite map_length, seq_length; auto).
  destruct (run_inv (num_nodes g) os Hos [] _ (inv_init _)) as [u' [rs' [E' [I _]]]].
  rewrite E in E'. injection E' as <- <-. cbn [app] in I. rewrite <- LG in I.
  destruct (from_uf_ok ord (adj_of g) _ u Po U I) as [H [mapping [EF [_ [LH [Cn [Cl [Ct [UH _]]]]]]]]].
  unfold from_union_find_csr. rewrite EF.
  destruct (build_rows (num_edges g) H) as [h [B A]]; [apply UH|].
  assert (NH : num_nodes h = length H).
  { rewrite <- A. unfold adj_of. rewrite map_length, seq_length. auto. }
  exists h, (fun v => nth v mapping 0). rewrite B, A, NH. rewrite LG in *.
  split; [auto|]. split; [rewrite LH; apply inv_classes; auto|]. split; [auto|]. split; [auto|]. split; [auto|].
  intro S. apply contraction_cut; [apply Cl|auto].
Qed.
Print Assumptions C10_contraction_preserves_cuts.

(** C10 for contractGraph with an arbitrary clustering given as mapping and reverse mapping. *)
Theorem C10_contract_mapping : forall ord G mapping rev,
  (forall p l, Permutation (ord p l) l) -> undirected G -> length mapping = length G ->
  (forall v, v < length G -> nth v mapping 0 < length rev) ->
  (forall p, p < length rev -> nth p rev [] = filter (fun v => nth v mapping 0 =? p) (seq 0 (length G))) ->
  exists H, contract ord G mapping rev = Some H /\ length H = length rev /\ undirected H /\
    forall S, cutw (length H) (wt H) S = cutw (length G) (wt G) (fun v => S (nth v mapping 0)).
Proof.
  intros ord G mapping rev Po U L1 L2 L3.
  destruct (contract_ok ord G mapping rev Po U L1 L2 L3) as [H [E [LH [C [UH _]]]]].
  exists H. split; [auto|]. split; [auto|]. split; [auto|]. intro S. apply contraction_cut; [rewrite LH; auto|auto].
Qed.
Print Assumptions C10_contract_mapping.

(** C11: the minimum cut does not drop, and it is kept if some minimum cut splits no set. *)
Theorem C11_contraction_mincut : forall ord g os u rs,
  (forall p l, Permutation (ord p l) l) -> undirected (adj_of g) ->
  Forall (op_lt (num_nodes g)) os -> uf_run (uf_init (num_nodes g)) os = Some (u, rs) ->
  exists h, from_union_find_csr ord g u = Some h /\
   forall c, mincut_of (adj_of g) c ->
    (forall c', mincut_of (adj_of h) c' -> (c <= c')%N) /\
    ((exists S, proper (num_nodes g) S /\ cutw (num_nodes g) (wt (adj_of g)) S = c /\
        forall x y, x < num_nodes g -> y < num_nodes g -> conn (pairs_of os) x y -> S x = S y) ->
     mincut_of (adj_of h) c).
Proof.
  intros ord g os u rs Po U Hos E.
  destruct (C10_contraction_preserves_cuts ord g os u rs Po U Hos E) as [h [f [EF [_ [_ [Cl [Cn Cu]]]]]]].
  exists h. split; [auto|]. unfold mincut_of.
  assert (LG : forall g, length (adj_of g) = num_nodes g) by (intro g0; unfold adj_of; rewrite map_length, seq_length; auto).
  rewrite !LG. intros c [_ Low].
  assert (Low' : forall S, proper (num_nodes h) S -> (c <= cutw (num_nodes h) (wt (adj_of h)) S)%N).
  { intros S P. rewrite Cu. apply Low. apply (proper_pull _ _ _ _ Cl P). }
  split.
  - intros c' [[S [P <-]] _]. auto.
  - intros [S [P [CS R]]].
    destruct (descend _ f _ S Cl) as [S' HS']; [intros x y Hx Hy Q; apply R; auto; apply Cn; auto|].
    split; [|auto]. exists S'. split; [eapply proper_push; eauto|].
    rewrite Cu, <- CS. apply cutw_ext. auto.
Qed.
Print Assumptions C11_contraction_mincut.

(** A square with one diagonal; vertices 0 and 2 are joined.  The order used visits the hash set
    backwards. *)
Definition c10_rows : graph :=
  gr [[(1, 2); (3, 1); (2, 5)]; [(0, 2); (2, 3)]; [(1, 3); (3, 4); (0, 5)]; [(2, 4); (0, 1)]].
Definition c10_graph : csr := match build 4 10 (script_of c10_rows) with Some g => g | None => start_construction 0 0 end.
Example c10_adj : adj_of c10_graph = c10_rows.
Proof. reflexivity. Qed.
Example c10_undirected : undirected (adj_of c10_graph).
Proof. rewrite c10_adj. apply undirectedb_ok. reflexivity. Qed.
Example c10_result : exists u rs, uf_run (uf_init 4) [OUnion 2 0; OFind 1] = Some (u, rs) /\
  option_map adj_of (from_union_find_csr (fun _ l => List.rev l) c10_graph u)
    = Some (gr [[(2, 5); (1, 5)]; [(0, 5)]; [(0, 5)]]).
Proof. eexists _, _. split; reflexivity. Qed.
Example c10_cut : cutw 3 (wt (gr [[(2, 5); (1, 5)]; [(0, 5)]; [(0, 5)]])) (fun p => p =? 1) = 5%N
  /\ cutw 4 (wt c10_rows) (fun v => nth v [0; 1; 0; 2] 0 =? 1) = 5%N.
Proof. split; reflexivity. Qed.
