(* Prop_Graph.v - properties C08 (construction) and C09 (degrees) of the static graph. *)
From Verif Require Import SpecBuild P_Graph SpecDegree P_Degree.

(** C08: whatever legal script is run, construction succeeds, sizes are exact, every node has exactly
    the requested edges in the requested order (without self loops), and each edge number belongs to
    the source it was added for. *)
Theorem C08_construction_exact : forall n m ops, legal n ops ->
  exists g, build n m ops = Some g /\ num_nodes g = n /\
    num_edges g = length (filter (fun e => negb (fst (snd e) =? fst e)) (req_edges ops)) /\
    (forall v, v < n -> edges_of g v = req_adj ops v) /\
    (forall v e, v < n -> first_edge g v <= e < first_invalid g v -> edge_source g e = v).
Proof.
  intros n m ops L. destruct (build_ok n m ops L) as [g [B [F _]]]. exists g.
  assert (S : StronglySorted le (map fst (noloop (req_edges ops)))) by (apply ss_filter, L).
  split; [auto|]. split; [apply (gfin_n _ _ _ F)|]. split; [|split].
  - unfold num_edges. rewrite (gf_edges _ _ _ F), map_length. reflexivity.
  - intros v Hv. rewrite req_adj_eq. apply (edges_of_ok n); auto.
  - intros v e Hv He. eapply edge_source_ok; eauto.
Qed.
Print Assumptions C08_construction_exact.

(** a script with an isolated first node, a gap, a self loop and an isolated last node *)
Definition c08_ops : list bop :=
  [BNode; BNode; BEdge 1 3 7; BEdge 1 1 9; BNode; BNode; BEdge 3 1 7; BNode]%N.
Example c08_legal : legal 5 c08_ops.
Proof.
  split; [reflexivity|]. split; [simpl; repeat constructor|].
  intros s t w H. simpl in H. repeat (destruct H as [H|H]; [injection H as <- <- <-; lia|]). contradiction.
Qed.
Example c08_graph : option_map (fun g => map (edges_of g) (seq 0 5)) (build 5 4 c08_ops)
  = Some [[]; [(3, 7%N)]; []; [(1, 7%N)]; []].
Proof. reflexivity. Qed.

(** C09, full statement: every session on a built graph gets the right answers. *)
Definition C09_statement : Prop := forall n m ops g cs, legal n ops -> 0 < n -> build n m ops = Some g ->
  sp_session n (wof (noloop (req_edges ops))) cs (g_session g cs).

(** It holds when no edge weight changes after the first getMinDegree / getMaxDegree.
    Missing from the full statement: sessions with a later setEdgeWeight, where it is false (below). *)
Theorem C09_degrees_exact_partial : forall n m ops g cs, legal n ops -> 0 < n -> build n m ops = Some g ->
  no_late_set cs -> sp_session n (wof (noloop (req_edges ops))) cs (g_session g cs).
Proof.
  intros n m ops g cs L Hn B NL. destruct (build_ok n m ops L) as [g' [B' [F C]]].
  rewrite B in B'. injection B' as <-. apply session_ok; auto.
  - constructor; auto; [apply ss_filter, L|congruence].
  - congruence.
Qed.
Print Assumptions C09_degrees_exact_partial.

Definition c09_ops : list bop := [BNode; BNode; BNode; BEdge 0 1 4; BEdge 1 0 4; BEdge 1 2 6; BEdge 2 1 6]%N.
Example c09_legal : legal 3 c09_ops.
Proof.
  split; [reflexivity|]. split; [simpl; repeat constructor|].
  intros s t w H. simpl in H. repeat (destruct H as [H|H]; [injection H as <- <- <-; lia|]). contradiction.
Qed.
Example c09_session : option_map (fun g => g_session g [GDeg 1; GSet 0 5; GSet 1 5; GDeg 1; GMin; GMax; GDeg 0]%N)
    (build 3 4 c09_ops)
  = Some [Some 10; None; None; Some 11; Some 5; Some 11; Some 5]%N.
Proof. reflexivity. Qed.

(** After getMinDegree the cached values are returned for ever: a weight change is not seen. *)
Theorem C09_degrees_exact_refuted : ~ C09_statement.
Proof.
  intro H. specialize (H 3 4 c09_ops).
  destruct (build 3 4 c09_ops) as [g|] eqn:B; [|discriminate].
  specialize (H g [GMin; GSet 0 1; GDeg 0]%N c09_legal ltac:(lia) eq_refl).
  vm_compute in B. injection B as <-. cbn [sp_session] in H.
  assert (R1 : in_range 3 (wof (noloop (req_edges c09_ops))) GMin).
  { intros v Hv. destruct v as [|[|[|v]]]; [vm_compute; discriminate..|lia]. }
  specialize (H R1). cbn [g_session g_call] in H. destruct H as [_ H].
  assert (R2 : in_range 3 (sp_next (wof (noloop (req_edges c09_ops))) GMin) (GSet 0 1%N)) by (vm_compute; lia).
  specialize (H R2). destruct H as [_ H].
  assert (R3 : in_range 3 (sp_next (sp_next (wof (noloop (req_edges c09_ops))) GMin) (GSet 0 1%N)) (GDeg 0)) by (vm_compute; lia).
  specialize (H R3). destruct H as [H _]. vm_compute in H. discriminate.
Qed.
Print Assumptions C09_degrees_exact_refuted.
