(* Prop_ParContract.v - property C82: the parallel contraction builds the contracted graph, whatever the threads do. *)
From Verif Require Import P_Cut P_ParContract6.

(** H is G contracted along the clusters of mapping: one vertex for each cluster, undirected, no parallel edges, and each
    cut of H has the weight of the cut of G it stands for *)
Definition contracted (G : graph) (mapping : list nat) (num : nat) (H : graph) : Prop :=
  length H = num /\ undirected H /\ contraction_of (length G) (wt G) (fun v => nth v mapping 0) num (wt H) /\ (forall v, NoDup (map fst (nth v H []))) /\
  forall S, cutw num (wt H) S = cutw (length G) (wt G) (fun v => S (nth v mapping 0)).
(** the blocks are numbered 0 .. num-1 *)
Definition block_ids (n : nat) (mapping : list nat) (num : nat) : Prop := (N.of_nat num <= 2 ^ 32)%N /\ forall v, v < n -> nth v mapping 0 < num.

Lemma small_of num : (N.of_nat num <= 2 ^ 32)%N -> small num.
Proof. intro H. exact H. Qed.
Lemma contracted_of G mapping num H : (forall v, v < length G -> nth v mapping 0 < num) -> is_contraction G mapping num H -> contracted G mapping num H.
Proof. intros HM (A & B & C & D). repeat (split; [auto|]). intro S. apply contraction_cut; auto. Qed.

(** static graphs (contractGraph): any distribution of the vertices to the threads, any interleaving *)
Theorem C82_parallel_contraction G mapping num assign : undirected G -> block_ids (length G) mapping num -> Permutation (concat assign) (seq 0 (length G)) ->
  if takes_sparse (length G) num then
    forall big, (big = true -> length G <> 0) ->
    exists ce b0 b1, contested big (length G) mapping num = Some (ce, b0, b1) /\
      forall sched1, exists s1, run1 ce (init1 G mapping num assign) sched1 = Some s1 /\ (exists more s, run1 ce s1 more = Some s /\ done1 s) /\
        (done1 s1 -> forall j, j < length assign -> exists s, settle ce b0 b1 j s1 = Some s /\
           forall sched2, exists s2, run2 (h_tab s) (init2 s) sched2 = Some s2 /\ (exists more s', run2 (h_tab s) s2 more = Some s' /\ done2 s') /\
             (done2 s2 -> contracted G mapping num (rows_of (h_deg s) s2)))
  else exists H, full_mesh G mapping num assign = Some H /\ contracted G mapping num H.
Proof.
  intros U [Sm HM] HA. apply small_of in Sm. destruct (takes_sparse (length G) num) eqn:T.
  - intros big Hb. unfold takes_sparse in T. apply Nat.ltb_lt in T. destruct (contested_ok big (length G) mapping num) as (ce & b0 & b1 & E & B0 & B1 & C); [nia|intro; specialize (Hb H); nia|].
    exists ce, b0, b1. split; [exact E|]. intro sched1. destruct (par_first G mapping num Sm HM assign HA ce sched1) as (s1 & E1 & P1). exists s1. split; [exact E1|]. split; [exact P1|]. intros D1 j Hj.
    destruct (par_second G U mapping num Sm HM assign HA b0 b1 ce j sched1 s1 B0 B1 C Hj E1 D1) as (s & E2 & Q & _). exists s. split; [exact E2|]. intro sched2. destruct (Q sched2) as (s2 & E3 & P3 & R). exists s2. split; [exact E3|]. split; [exact P3|].
    intro D2. apply contracted_of; auto.
  - destruct (full_mesh_ok G U mapping num HM assign HA) as (H & E & R). exists H. split; [exact E|]. apply contracted_of; auto.
Qed.

(** mutable graphs (contractGraph with a copy): the two-block case is needed for the contested edge *)
Theorem C82_parallel_contraction_mutable M0 mapping num assign big : mvalid M0 -> block_ids (m_n M0) mapping num -> Permutation (concat assign) (seq 0 (m_n M0)) ->
  0 < num -> (big = true -> 2 <= num) ->
  exists ce b0 b1, contested big (m_n M0) mapping num = Some (ce, b0, b1) /\
    forall sched1, exists s1, run1 ce (init1 (adj (m_rows M0)) mapping num assign) sched1 = Some s1 /\ (exists more s, run1 ce s1 more = Some s /\ done1 s) /\
      (done1 s1 -> forall j, j < length assign -> exists s, settle ce b0 b1 j s1 = Some s /\
         forall order, Permutation order (h_keys s) -> exists M, mut_build (h_tab s) (start_construction num) (concat order) = Some M /\ mvalid M /\ m_n M = num /\
           contraction_of (m_n M0) (wt (adj (m_rows M0))) (fun v => nth v mapping 0) num (wt (adj (m_rows M))) /\
           forall S, cutw num (wt (adj (m_rows M))) S = cutw (m_n M0) (wt (adj (m_rows M0))) (fun v => S (nth v mapping 0))).
Proof.
  intros V [Sm HM] HA N0 Hb. apply small_of in Sm. assert (L : length (adj (m_rows M0)) = m_n M0) by apply adj_length. pose proof (valid_undirected _ (proj1 V)) as U. rewrite <- L in *.
  destruct (contested_ok big (length (adj (m_rows M0))) mapping num N0 Hb) as (ce & b0 & b1 & E & B0 & B1 & C).
  exists ce, b0, b1. split; [exact E|]. intro sched1. destruct (par_first (adj (m_rows M0)) mapping num Sm HM assign HA ce sched1) as (s1 & E1 & P1). exists s1. split; [exact E1|]. split; [exact P1|]. intros D1 j Hj.
  destruct (par_second (adj (m_rows M0)) U mapping num Sm HM assign HA b0 b1 ce j sched1 s1 B0 B1 C Hj E1 D1) as (s & E2 & _ & Q). exists s. split; [exact E2|]. intros order PO. destruct (Q order PO) as (M & E3 & V' & Nn & R).
  exists M. split; [exact E3|]. split; [auto|]. split; [auto|]. split; [exact R|]. intro S. apply contraction_cut; auto.
Qed.

(** with one block the contested edge is looked for although there is no second block: el[1] is read out of range.
    contractGraph takes this way for a mutable graph of more than 100 vertices that falls into one block *)
Theorem C82_one_block_refuted : ~ forall n mapping num, 100 < n -> length mapping = n -> 0 < num -> (forall v, v < n -> nth v mapping 0 < num) -> exists r, contested true n mapping num = Some r.
Proof.
  intro H. destruct (H 101 (repeat 0 101) 1) as [r E]; [lia|apply repeat_length|lia|intros v Hv; rewrite nth_repeat; lia|]. discriminate E.
Qed.

Print Assumptions C82_parallel_contraction.
Print Assumptions C82_parallel_contraction_mutable.
Print Assumptions C82_one_block_refuted.

(** ** a graph of seven vertices in three blocks, two threads; the edge between the blocks 0 and 1 is contested *)
Definition pg : graph := gr [[(3, 2); (6, 4); (1, 9)]; [(4, 3); (0, 9)]; [(5, 2)]; [(0, 2)]; [(1, 3); (6, 5)]; [(2, 2); (6, 7)]; [(4, 5); (0, 4); (5, 7)]].
Definition pm : list nat := [0; 0; 0; 1; 1; 2; 2].
Definition pa : list (list nat) := [[6; 0; 3]; [1; 2; 4; 5]].
Definition good (g : graph) : bool :=
  forallb (fun u => forallb (fun e => (fst e <? length g) && negb (fst e =? u)) (nth u g [])) (seq 0 (length g)) &&
  forallb (fun u => forallb (fun v => (wt g u v =? wt g v u)%N) (seq 0 (length g))) (seq 0 (length g)).
Lemma good_ok g : good g = true -> undirected g.
Proof.
  unfold good. rewrite andb_true_iff, !forallb_forall. intros [A B]. split.
  - intros u v w I. destruct (Nat.lt_ge_cases u (length g)) as [Q|Q]; [|rewrite nth_overflow in I by auto; destruct I]. specialize (A u ltac:(apply in_seq; lia)). rewrite forallb_forall in A. specialize (A _ I). apply andb_true_iff in A as [A1 A2]. apply Nat.ltb_lt in A1. apply negb_true_iff, Nat.eqb_neq in A2. auto.
  - intros u v Hu Hv. specialize (B u ltac:(apply in_seq; lia)). rewrite forallb_forall in B. apply N.eqb_eq, B, in_seq. lia.
Qed.
Example C82_case : undirected pg /\ block_ids (length pg) pm 3 /\ Permutation (concat pa) (seq 0 (length pg)) /\ takes_sparse (length pg) 3 = true /\
  contested true (length pg) pm 3 = Some (1%N, 0, 1) /\
  exists s1 s s2, run1 1 (init1 pg pm 3 pa) [1; 0; 1; 1; 0; 0; 1] = Some s1 /\ settle 1 0 1 1 s1 = Some s /\
    run2 (h_tab s) (init2 s) [0; 1; 1; 0; 0; 1; 1; 0; 1; 0; 1; 1; 0] = Some s2 /\ h_keys s = [[4294967298%N]; [2%N; 1%N]] /\
    rows_of (h_deg s) s2 = gr [[(2, 6); (1, 5)]; [(2, 5); (0, 5)]; [(0, 6); (1, 5)]].
Proof.
  split; [apply good_ok; reflexivity|]. split; [split; [vm_compute; discriminate|]; intros v Hv; do 7 (destruct v as [|v]; [cbn; lia|]); cbn in Hv; lia|].
  split; [apply NoDup_Permutation; [repeat constructor; cbn; intuition lia|apply seq_NoDup|]; intro x; rewrite in_seq; cbn; lia|].
  split; [reflexivity|]. split; [reflexivity|]. eexists. eexists. eexists. split; [vm_compute; reflexivity|]. split; [vm_compute; reflexivity|]. split; [vm_compute; reflexivity|]. split; vm_compute; reflexivity.
Qed.
(** two blocks: the full mesh *)
Example C82_mesh : takes_sparse (length pg) 2 = false /\ full_mesh pg [0; 0; 0; 1; 1; 1; 1] 2 pa = Some (gr [[(1, 11)]; [(0, 11)]]).
Proof. split; vm_compute; reflexivity. Qed.
(** the mutable ending of the same run *)
Example C82_mutable_case : exists s1 s M, run1 1 (init1 pg pm 3 pa) [1; 0; 1; 1; 0; 0; 1] = Some s1 /\ settle 1 0 1 1 s1 = Some s /\
  mut_build (h_tab s) (start_construction 3) (concat (rev (h_keys s))) = Some M /\ adj (m_rows M) = gr [[(2, 6); (1, 5)]; [(0, 5); (2, 5)]; [(0, 6); (1, 5)]].
Proof. eexists. eexists. eexists. split; [vm_compute; reflexivity|]. split; [vm_compute; reflexivity|]. split; vm_compute; reflexivity. Qed.
