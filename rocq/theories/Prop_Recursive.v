(* Prop_Recursive.v - property C75: recursiveCactus and its cactus of all minimum cuts.  The claim is false for
   edge_selection "random": the positions of vertices that were taken out as leaves stay visible. *)
From Verif Require Import SpecCut SpecDyn SpecMutable M_Mutable P_Mutable P_MutableIO P_Cut M_PushRelabel M_Noi M_AllCut P_LocalSearch2 M_Recursive Prop_StCactus Prop_Rebuild P_Check M_Dynamic P_Dynamic P_Dynamic4.

(** the choices of the code: the random vertex of findFlowEdge (583) for each flow problem, the order of the discharges and the global relabelings of each flow *)
Definition random_edges (rv : nat -> nat) (pid : nat) (G : mg) : option (nat * nat * nat) := find_flow_edge (m_n G) G (rv pid).
Definition code_flows (fuel : nat) (pick : nat -> nat -> list nat -> nat) (gl : nat -> nat -> bool) (pid : nat) (G : mg) (s t : nat) : option (N * list (list Z)) :=
  pr_flow fuel (pick pid) (gl pid) (m_rows G) s t.

(** a graph of eight vertices, each of degree three; minimum cut 3 *)
Definition rc8_edges : list (nat * nat) := [(0, 1); (0, 4); (0, 6); (1, 2); (1, 3); (2, 5); (2, 7); (3, 4); (3, 6); (4, 7); (5, 6); (5, 7)].
Definition rc8 : mg := match fold_opt (fun M e => m_new_edge M (fst e) (snd e) 1%N) rc8_edges (start_construction 8) with Some M => m_finish M | None => start_construction 8 end.
Definition rc8_rv (pid : nat) : nat := nth pid [5; 0; 1; 3; 0; 1; 2; 2; 0; 1] 0.
Definition rc8_pick (pid k : nat) (q : list nat) : nat := nth 0 q 0.
Notation rc8_run := (recursive_cactus 3 1000 (fun G => Some G) (random_edges rc8_rv) (code_flows 1000 rc8_pick (fun _ _ => false)) (fun l => l) 1000 20 0 0 rc8).

(** the reductions before the recursion (120-131) unite nothing in this graph, so that kern may be the identity; no other call reaches a depth of 10 *)
Example rc8_kernel : forallb (fun r => match capforest (mk_cfg KDefault false) r (adj (m_rows rc8)) 4 with Some u => uf_n u =? 8 | None => false end) (seq 0 8) = true /\
  option_map uf_n (ac_tests12 (adj (m_rows rc8)) 3) = Some 8 /\ option_map uf_n (ac_tests34 (adj (m_rows rc8)) 3) = Some 8.
Proof. split; [|split]; vm_compute; reflexivity. Qed.
Example rc8_depth : recursive_cactus 3 1000 (fun G => Some G) (random_edges rc8_rv) (code_flows 1000 rc8_pick (fun _ _ => false)) (fun l => l) 1000 10 0 0 rc8 = rc8_run.
Proof. vm_compute. reflexivity. Qed.

Definition rc8_out : mg := match rc8_run with Some (M, _) => M | None => rc8 end.
Definition pos8 (x : nat) : nat := nth x (m_pos rc8_out) 0.

Lemma rc8_valid : mvalid rc8.
Proof.
  assert (K : forall es M, mvalid M -> m_n M = 8 -> forallb (fun e => (fst e <? snd e) && (snd e <? 8)) es = true ->
     match fold_opt (fun M e => m_new_edge M (fst e) (snd e) 1%N) es M with Some M' => mvalid M' | None => True end).
  { induction es as [|[a b] es IH]; intros M V N H; cbn [fold_opt]; [auto|]. cbn [forallb fst snd] in H. apply andb_true_iff in H. destruct H as [H1 H2]. apply andb_true_iff in H1. destruct H1 as [H0 H1]. apply Nat.ltb_lt in H0, H1.
    cbn [fst snd]. destruct (new_edge_ok M a b 1%N V H0 ltac:(lia)) as (M' & E & V' & N' & _). rewrite E. apply IH; auto. congruence. }
  pose proof (K rc8_edges (start_construction 8)) as H. unfold rc8. destruct (fold_opt _ rc8_edges (start_construction 8)) as [M|] eqn:E; [|vm_compute in E; discriminate E].
  assert (Q : mvalid M) by (apply H; [apply (start_cut 8)|apply (start_cut 8)|vm_compute; reflexivity]). exact Q.
Qed.
Lemma rc8_fresh : fresh rc8.
Proof. split; [vm_compute; reflexivity|split; vm_compute; reflexivity]. Qed.
Lemma mincut_rows G c : mincut_of (adj (m_rows G)) c -> is_mincut (m_n G) (gw G) c.
Proof. unfold mincut_of, adj at 1. rewrite map_length. auto. Qed.
Lemma rc8_min : is_mincut (m_n rc8) (gw rc8) 3.
Proof.
  apply mincut_rows. apply (mincut_check (adj (m_rows rc8)) 3 [true; false; false; false; false; false; false; false]); vm_compute; reflexivity.
Qed.

(** every edge of the result has weight 3; {2} is a cut of weight 3 of the result that separates nothing (vertex 2 of it is an empty leaf), and the minimum
    cut {2} of the graph is lost because 2 and 5 share a place *)
Theorem C75_recursive_cactus_refuted : exists rv pick gl G M pid, mvalid G /\ fresh G /\ is_mincut (m_n G) (gw G) 3 /\
  recursive_cactus 3 1000 (fun G => Some G) (random_edges rv) (code_flows 1000 pick gl) (fun l => l) 1000 20 0 0 G = Some (M, pid) /\
  (exists S, proper (m_n M) S /\ cutw (m_n M) (gw M) S = 3%N /\ forall x, x < m_n G -> S (nth x (m_pos M) 0) = false) /\
  (exists S, proper (m_n G) S /\ cutw (m_n G) (gw G) S = 3%N /\ forall S', ~ (forall x, x < m_n G -> S' (nth x (m_pos M) 0) = S x)).
Proof.
  exists rc8_rv, rc8_pick, (fun _ _ => false), rc8, rc8_out, 10. split; [apply rc8_valid|]. split; [apply rc8_fresh|]. split; [apply rc8_min|].
  split; [vm_compute; reflexivity|]. split.
  - exists (Nat.eqb 2). split; [|split; [vm_compute; reflexivity|]].
    + split; [exists 2|exists 0]; split; try reflexivity; apply Nat.ltb_lt; vm_compute; reflexivity.
    + assert (A : forallb (fun x => negb (2 =? nth x (m_pos rc8_out) 0)) (seq 0 8) = true) by (vm_compute; reflexivity). rewrite forallb_forall in A.
      intros x Hx. assert (N8 : m_n rc8 = 8) by (vm_compute; reflexivity). rewrite N8 in Hx. pose proof (A x (proj2 (in_seq 8 0 x) (conj (Nat.le_0_l x) Hx))) as B. cbv beta in B. apply negb_true_iff in B. exact B.
  - exists (Nat.eqb 2). split; [|split; [vm_compute; reflexivity|]].
    + split; [exists 2|exists 0]; split; try reflexivity; apply Nat.ltb_lt; vm_compute; reflexivity.
    + intros S' H. assert (m_n rc8 = 8) by (vm_compute; reflexivity). pose proof (H 2 ltac:(lia)) as A. pose proof (H 5 ltac:(lia)) as B.
      assert (P2 : nth 2 (m_pos rc8_out) 0 = 3) by (vm_compute; reflexivity). assert (P5 : nth 5 (m_pos rc8_out) 0 = 3) by (vm_compute; reflexivity). rewrite P2 in A. rewrite P5 in B. cbn in A, B. congruence.
Qed.
Print Assumptions C75_recursive_cactus_refuted.
