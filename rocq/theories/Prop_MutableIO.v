(* Prop_MutableIO.v - C25, C26, C50: conversions, serialisation and vertex insertion of the mutable graph. *)
From Verif Require Import SpecCut P_Cut SpecMutable M_Graph M_Contract M_Mutable P_Mutable M_MutableIO P_MutableIO P_MutableIO2 Prop_Mutable.
From Coq Require Import Permutation.

(** ** C25: conversion *)

(** Partial: the quantifier of C25 includes multigraphs; here each row lists a neighbour once (self loops
    are allowed and dropped).  The refutation below shows that the restriction is needed. *)
Theorem C25_from_graph_access_partial : forall g, (forall u v w, In (v, w) (nth u g []) -> v < length g) -> symm (length g) (wt g) ->
  (forall u, u < length g -> NoDup (map fst (nth u g []))) ->
  exists M, from_graph_access g = Some M /\ valid_rows (m_rows M) /\ degrees_exact (m_rows M) (m_deg M) /\ count_exact (m_rows M) (m_ne M) /\
    m_n M = length g /\
    (forall a b, a < length g -> b < length g -> a <> b -> wt (adj (m_rows M)) a b = wt g a b) /\
    (forall a, wt (adj (m_rows M)) a a = 0%N) /\ m_orig M = length g /\ groups_exact (m_n M) (m_cont M) (m_pos M) /\
    (forall x, x < length g -> nth x (m_pos M) 0 = x).
Proof.
  intros g H1 H2 H3. destruct (from_graph_access_ok g H1 H2 H3) as (M & E & (V & D & C) & N & W & L & _ & P & Q & O).
  exists M. do 8 (split; [assumption|]). rewrite N, P, Q. split; [|intros x Hx; rewrite seq_nth by auto; lia].
  split; [rewrite map_length, seq_length; auto|]. intros p x Hp.
  rewrite seq_length. rewrite (nth_indep _ [] [0]) by (rewrite map_length, seq_length; auto).
  rewrite (map_nth (fun i => [i]) (seq 0 (length g)) 0), seq_nth by auto. cbn. split.
  - intros [<-|[]]. split; [auto|]. rewrite seq_nth; auto.
  - intros [Hx E']. rewrite seq_nth in E' by auto. left. lia.
Qed.
Print Assumptions C25_from_graph_access_partial.

(** the other direction, for every valid mutable graph (parallel edges included) *)
Theorem C25_to_graph_access : forall M, mvalid M -> exists h, to_graph_access M = Some h /\ undirected (adj_of h) /\
  length (adj_of h) = m_n M /\ (forall v, nth v (adj_of h) [] = map (fun e => (fst (fst e), snd (fst e))) (nth v (m_rows M) [])) /\
  (forall S, cutw (m_n M) (wt (adj_of h)) S = cutw (m_n M) (wt (adj (m_rows M))) S).
Proof.
  intros M MV. destruct (to_graph_access_ok M MV) as (h & E & A). exists h. rewrite A.
  split; [auto|]. split; [apply valid_undirected, MV|]. split; [apply adj_length|]. split; [intro v; apply adj_nth|auto].
Qed.
Print Assumptions C25_to_graph_access.

(* static graph with a self loop and different degrees *)
Definition ga_ex : graph := gr [[(1, 4); (2, 5); (0, 9)]; [(0, 4); (3, 7)]; [(0, 5)]; [(1, 7)]].
Example c25_hyps : (forall u v w, In (v, w) (nth u ga_ex []) -> v < length ga_ex) /\ symm (length ga_ex) (wt ga_ex) /\
  (forall u, u < length ga_ex -> NoDup (map fst (nth u ga_ex []))).
Proof.
  split; [|split].
  - intros [|[|[|[|u]]]] v w H; cbn in H; repeat (destruct H as [H|H]; [injection H as <- <-; cbn; lia|]); destruct H || destruct u; destruct H.
  - intros u v Hu Hv. cbn in Hu, Hv. destruct u as [|[|[|[|u]]]]; try lia; destruct v as [|[|[|[|v]]]]; try lia; reflexivity.
  - intros [|[|[|[|u]]]] H; cbn in H |- *; try lia; repeat constructor; cbn; intuition lia.
Qed.
Example c25_run : option_map show (from_graph_access ga_ex) =
  Some ([[(1, 4, 0); (2, 5, 0)]; [(0, 4, 0); (3, 7, 0)]; [(0, 5, 1)]; [(1, 7, 1)]], [9; 11; 5; 7], 6).
Proof. reflexivity. Qed.

(** The full statement is false: a symmetric multigraph with two parallel edges of weights 1 and 2
    between vertices 0 and 1 (3 in total) becomes a graph with an edge of weight 5, because both end
    points add the weight of the second copy. *)
Theorem C25_multigraph_refuted : exists g M, undirected g /\ from_graph_access g = Some M /\ m_n M = length g /\
  wt g 0 1 = 3%N /\ wt (adj (m_rows M)) 0 1 = 5%N.
Proof.
  exists (gr [[(1, 1); (1, 2)]; [(0, 1); (0, 2)]]).
  destruct (from_graph_access _) as [M|] eqn:E; [|vm_compute in E; discriminate]. exists M. split; [|vm_compute in E; injection E as <-; repeat split].
  split.
  - intros [|[|u]] v w H; cbn in H; repeat (destruct H as [H|H]; [injection H as <- <-; cbn; lia|]); destruct H || destruct u; destruct H.
  - intros u v Hu Hv. cbn in Hu, Hv. destruct u as [|[|u]]; try lia; destruct v as [|[|v]]; try lia; reflexivity.
Qed.
Print Assumptions C25_multigraph_refuted.

(** ** C26: serialisation *)

(** Partial: C26 says every valid mutable graph.  Here the node ids in use are smaller than the number of
    half edges (see the refutation), there is a position for every original vertex and it is a vertex
    (it is not after deleteVertex), and the edge markers fit in 64 bits.  The flags setNodeInCut are not
    serialised at all.  Order of the edges within a row is not preserved. *)
Theorem C26_roundtrip_partial : forall M, mvalid M -> 0 < m_n M -> length (m_part M) = m_n M -> length (m_pos M) = m_orig M -> m_n M <= m_orig M ->
  (forall x, x < m_orig M -> nth x (m_pos M) 0 < m_n M) ->
  (forall v e t w r, nth_error (nth v (m_rows M) []) e = Some (t, w, r) -> (N.of_nat t < m_ne M)%N) -> (m_ne M + N.of_nat (m_n M) < 2 ^ 64 - 1)%N ->
  exists s M', serialize M = Some s /\ deserialize s = Some M' /\ valid_rows (m_rows M') /\ degrees_exact (m_rows M') (m_deg M') /\
    count_exact (m_rows M') (m_ne M') /\ m_n M' = m_n M /\
    (forall v, Permutation (nth v (adj (m_rows M)) []) (nth v (adj (m_rows M')) [])) /\
    m_deg M' = m_deg M /\ m_ne M' = m_ne M /\ m_part M' = m_part M /\ m_pos M' = m_pos M /\ m_pc M' = m_pc M /\ m_orig M' = m_orig M /\
    groups_exact (m_n M') (m_cont M') (m_pos M').
Proof.
  intros M H1 H2 H3 H4 H5 H6 H7 H8. destruct (serial_roundtrip M H1 H2 H3 H4 H5 H6 H7 H8) as (s & M' & A & B & (C1 & C2 & C3) & D).
  exists s, M'. do 5 (split; [assumption|]). exact D.
Qed.
Print Assumptions C26_roundtrip_partial.

Definition ser_ex : mg := mg_of 4 [NewEdge 0 1 1; NewEdge 0 2 2; NewEdge 0 3 3; NewEdge 1 2 4; NewEdge 1 3 5; NewEdge 2 3 6; NewEdge 1 3 8].
Example c26_hyps : mvalid ser_ex /\ 0 < m_n ser_ex /\ length (m_part ser_ex) = m_n ser_ex /\ length (m_pos ser_ex) = m_orig ser_ex /\
  m_n ser_ex <= m_orig ser_ex /\ (forall x, x < m_orig ser_ex -> nth x (m_pos ser_ex) 0 < m_n ser_ex) /\
  (forall v e t w r, nth_error (nth v (m_rows ser_ex) []) e = Some (t, w, r) -> (N.of_nat t < m_ne ser_ex)%N) /\
  (m_ne ser_ex + N.of_nat (m_n ser_ex) < 2 ^ 64 - 1)%N.
Proof.
  assert (MV : mvalid ser_ex) by (apply mg_of_valid; reflexivity).
  split; [exact MV|]. split; [vm_compute; lia|]. split; [reflexivity|]. split; [reflexivity|]. split; [vm_compute; lia|].
  split; [intros x Hx; replace (m_orig ser_ex) with 4 in Hx by reflexivity; destruct x as [|[|[|[|x]]]]; vm_compute; lia|].
  split; [|vm_compute; reflexivity]. intros v e t w r H. destruct MV as [V _]. destruct (V v e t w r H) as [T _].
  replace (length (m_rows ser_ex)) with 4 in T by reflexivity. replace (m_ne ser_ex) with 14%N by reflexivity. lia.
Qed.
Example c26_run : option_map show (match serialize ser_ex with Some s => deserialize s | None => None end) =
  Some ([[(1, 1, 0); (2, 2, 0); (3, 3, 0)]; [(0, 1, 0); (2, 4, 1); (3, 5, 1); (3, 8, 2)]; [(0, 2, 1); (1, 4, 1); (3, 6, 3)];
         [(0, 3, 2); (1, 5, 2); (1, 8, 3); (2, 6, 2)]], [6; 18; 12; 22], 14).
Proof. reflexivity. Qed.

(** The full statement is false: target ids and markers (number of half edges plus node id) share a
    stream, and a target that is at least the number of half edges is read as a marker.  The graph with
    four vertices and the single edge {0,3} loses its edge. *)
Theorem C26_roundtrip_refuted : exists M s M', mvalid M /\ length (m_pos M) = m_orig M /\ m_n M = m_orig M /\
  serialize M = Some s /\ deserialize s = Some M' /\ wt (adj (m_rows M)) 0 3 = 5%N /\ (forall a b, wt (adj (m_rows M')) a b = 0%N).
Proof.
  exists (mg_of 4 [NewEdge 0 3 5]). destruct (serialize _) as [s|] eqn:E; [|vm_compute in E; discriminate]. exists s.
  vm_compute in E. injection E as <-. destruct (deserialize _) as [M'|] eqn:E; [|vm_compute in E; discriminate]. exists M'.
  vm_compute in E. injection E as <-. split; [apply mg_of_valid; reflexivity|]. do 5 (split; [reflexivity|]).
  intros a b. cbn. destruct a as [|[|[|[|a]]]]; reflexivity || (destruct a; reflexivity).
Qed.
Print Assumptions C26_roundtrip_refuted.

(** ** C50: adding a vertex *)

(** Partial: new_empty_node on a finished graph whose group table is not longer than the graph. *)
Theorem C50_new_empty_node_partial : forall M, mvalid M -> m_last M = m_n M -> length (m_cont M) = m_n M ->
  (forall x, x < length (m_pos M) -> nth x (m_pos M) 0 < m_n M) -> groups_exact (m_n M) (m_cont M) (m_pos M) ->
  let M' := new_empty_node M in
  mvalid M' /\ m_n M' = S (m_n M) /\ (forall a b, wt (adj (m_rows M')) a b = wt (adj (m_rows M)) a b) /\
  m_pos M' = m_pos M /\ groups_exact (m_n M') (m_cont M') (m_pos M') /\ m_last M' = m_n M' /\ length (m_cont M') = m_n M'.
Proof.
  intros M [V [[LD D] C]] HL HC HP [_ HG] M'. subst M'. unfold new_empty_node. rewrite HL, Nat.eqb_refl. unfold m_n in *. cbn [m_rows m_deg m_ne m_cont m_pos m_last].
  set (R := m_rows M) in *.
  assert (NR : forall v, nth v (R ++ [[]]) [] = nth v R []).
  { intro v. destruct (Nat.lt_ge_cases v (length R)); [apply app_nth1; auto|]. rewrite app_nth2, (nth_overflow R) by auto. destruct (v - length R) as [|[|k]]; reflexivity. }
  split; [split; [|split]|].
  - intros v e t w r H. cbn [m_rows] in *. rewrite NR in H. destruct (V v e t w r H) as (A & B & X). rewrite app_length. cbn. split; [lia|]. split; [auto|]. rewrite NR. auto.
  - cbn. split; [rewrite !app_length; cbn; lia|]. intros v Hv. rewrite NR. rewrite app_length in Hv. cbn [length] in Hv. destruct (Nat.lt_ge_cases v (length R)).
    + rewrite app_nth1 by lia. apply D; auto.
    + rewrite app_nth2 by lia. rewrite (nth_overflow R) by auto. destruct (v - length (m_deg M)) as [|[|k]]; reflexivity.
  - unfold count_exact in *. cbn [m_rows m_ne]. rewrite sumN_app, C. cbn. lia.
  - split; [rewrite app_length; cbn; lia|]. split.
    { intros a b. unfold wt. rewrite !adj_nth, NR. reflexivity. }
    split; [auto|]. split; [|split; rewrite !app_length; cbn; lia].
    split; [rewrite !app_length; cbn; lia|]. intros p x Hp. rewrite app_length in Hp. cbn in Hp. destruct (Nat.lt_ge_cases p (length R)).
    + rewrite app_nth1 by lia. apply HG. auto.
    + assert (p = length R) by lia. subst p. rewrite app_nth2, HC, Nat.sub_diag by lia. cbn. split; [tauto|]. intros [Hx E]. specialize (HP x Hx). lia.
Qed.
Print Assumptions C50_new_empty_node_partial.

Example c50_hyps : let M := m_finish k4 in mvalid M /\ m_last M = m_n M /\ length (m_cont M) = m_n M /\
  (forall x, x < length (m_pos M) -> nth x (m_pos M) 0 < m_n M) /\ groups_exact (m_n M) (m_cont M) (m_pos M).
Proof.
  destruct c22_hyps as (A & _ & _ & _ & B). intro M. split; [exact A|]. split; [reflexivity|]. split; [reflexivity|]. split; [|exact B].
  intros x Hx. replace (length (m_pos M)) with 4 in Hx by reflexivity. destruct x as [|[|[|[|x]]]]; vm_compute; lia.
Qed.
Example c50_run : (show (new_empty_node (m_finish k4)), m_cont (new_empty_node (m_finish k4))) =
  ([[(1, 1, 0); (2, 2, 0); (3, 3, 0)]; [(0, 1, 0); (2, 4, 1); (3, 5, 1)]; [(0, 2, 1); (1, 4, 1); (3, 6, 2)]; [(0, 3, 2); (1, 5, 2); (2, 6, 2)]; []],
   [6; 10; 12; 14; 0], 12, [[0]; [1]; [2]; [3]; []]).
Proof. reflexivity. Qed.

(** The full statement is false after deleteVertex (which leaves the group of the moved vertex in the
    table): the new empty vertex claims to contain an original vertex that lies elsewhere. *)
Theorem C50_after_delete_refuted : exists M M1, mvalid M /\ m_last M = m_n M /\ length (m_cont M) = m_n M /\
  groups_exact (m_n M) (m_cont M) (m_pos M) /\ m_delete_vertex M 1 = Some M1 /\
  let M' := new_empty_node M1 in m_n M' = 4 /\ m_last M' = 4 /\ nth 3 (m_cont M') [] = [3] /\ nth 3 (m_pos M') 0 = 1.
Proof.
  exists (m_finish k4). destruct (m_delete_vertex (m_finish k4) 1) as [M1|] eqn:E; [|vm_compute in E; discriminate]. exists M1.
  destruct c50_hyps as (A & B & C & _ & D). vm_compute in E. injection E as <-. do 5 (split; [assumption || reflexivity|]). repeat split.
Qed.
Print Assumptions C50_after_delete_refuted.

(** and false for new_node on a finished graph: emplace_back(last_node) makes a vector of last_node zeros *)
Theorem C50_new_node_refuted : exists M, mvalid M /\ m_last M = m_n M /\ length (m_cont M) = m_n M /\ groups_exact (m_n M) (m_cont M) (m_pos M) /\
  let M' := new_node M in m_n M' = 5 /\ nth 4 (m_cont M') [] = [0; 0; 0; 0] /\ nth 4 (m_pos M') 0 = 4 /\ nth 0 (m_pos M') 0 = 0.
Proof.
  exists (m_finish k4). destruct c50_hyps as (A & B & C & _ & D). do 4 (split; [assumption|]). repeat split.
Qed.
Print Assumptions C50_new_node_refuted.
