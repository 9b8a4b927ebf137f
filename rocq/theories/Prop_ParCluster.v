(* Prop_ParCluster.v - properties C83 and C84: parallel label propagation and findTrivialCuts. *)
From Verif Require Import P_Cut P_Cluster P_ParCluster P_ParContract6 Prop_ParContract.

(** all vertices are dealt out to the threads, each to one *)
Definition dealt (n : nat) (assign : list (list nat)) : Prop := Permutation (concat assign) (seq 0 n).
Lemma dealt_lt n assign : dealt n assign -> forall v, In v (concat assign) -> v < n.
Proof. intros H v I. apply (Permutation_in _ H), in_seq in I. lia. Qed.

(** C83: whatever the distribution of the vertices, the interleaving and the random bits, parallel label propagation reads
    and writes nothing out of range, can always be brought to its end, and its labels (also those in between) are vertices
    of the same component *)
Theorem C83_parallel_labels G coin a1 a2 sched1 : undirected G -> dealt (length G) a1 -> dealt (length G) a2 ->
  exists s1, pl_run G coin (pl_init G a1) sched1 = Some s1 /\ (exists more s, pl_run G coin s1 more = Some s /\ pl_done s) /\
    (pl_done s1 -> forall sched2, exists s2, pl_run G coin (pl_again s1 a2) sched2 = Some s2 /\ (exists more s, pl_run G coin s2 more = Some s /\ pl_done s) /\
       length (p_cl s2) = length G /\ forall v, v < length G -> nth v (p_cl s2) 0 < length G /\ together G v (nth v (p_cl s2) 0)).
Proof.
  intros U D1 D2. destruct (pl_run_ok G U coin sched1 _ (pl_init_ok G coin a1 (dealt_lt _ _ D1))) as (s1 & E1 & I1 & _). exists s1. split; [exact E1|]. split; [exact (pl_more G U coin _ s1 (le_n _) I1)|].
  intros _ sched2. destruct (pl_run_ok G U coin sched2 _ (pl_again_ok G s1 a2 I1 (dealt_lt _ _ D2))) as (s2 & E2 & I2 & _). exists s2. split; [exact E2|]. split; [exact (pl_more G U coin _ s2 (le_n _) I2)|].
  destruct I2 as [L C _]. auto.
Qed.
Print Assumptions C83_parallel_labels.

(** C83: a round of the parallel VieCut up to the first contraction: any graph H that the parallel contraction may return for these
    labels has exactly cuts of G, and it keeps every set that no edge leaves: a graph that is not connected stays so *)
Theorem C83_parallel_round G coin a1 a2 sched1 sched2 s1 s2 cut order : undirected G -> dealt (length G) a1 -> dealt (length G) a2 ->
  pl_run G coin (pl_init G a1) sched1 = Some s1 -> pl_done s1 -> pl_run G coin (pl_again s1 a2) sched2 = Some s2 -> pl_done s2 ->
  exists mapping rev, remap_cluster G (p_cl s2) = Some (mapping, rev) /\ find_trivial_par G mapping rev cut order = (mapping, rev) /\ clusters (length G) mapping rev /\
    forall H, contracted G mapping (length rev) H ->
      (forall S', proper (length H) S' -> exists S, proper (length G) S /\ cutw (length G) (wt G) S = cutw (length H) (wt H) S') /\
      forall S, uncut G S -> exists S', (forall v, v < length G -> S' (nth v mapping 0) = S v) /\ cutw (length H) (wt H) S' = cutw (length G) (wt G) S /\ (proper (length G) S -> proper (length H) S').
Proof.
  intros U D1 D2 E1 F1 E2 F2. destruct (C83_parallel_labels G coin a1 a2 sched1 U D1 D2) as (x & Ex & _ & K). rewrite E1 in Ex. injection Ex as <-. destruct (K F1 sched2) as (y & Ey & _ & L & C). rewrite E2 in Ey. injection Ey as <-.
  destruct (remap_ok G (p_cl s2) L) as (mapping & rev & R & Cl & Q). { intros c I. destruct (In_nth _ _ 0 I) as (i & Hi & <-). apply C. lia. }
  exists mapping, rev. split; [exact R|]. split; [apply find_trivial_par_id|]. split; [exact Cl|]. intros H (LH & _ & _ & _ & Cut). pose proof Cl as [_ [O1 O2] _]. rewrite LH. split.
  - intros S' [(p & Hp & Sp) (q & Hq & Sq)]. exists (fun v => S' (nth v mapping 0)). split; [|symmetry; apply Cut]. destruct (O2 p Hp) as (u & Hu & <-). destruct (O2 q Hq) as (v & Hv & <-). split; [exists u; auto|exists v; auto].
  - intros S HS. destruct (lift_uncut G (p_cl s2) mapping rev Cl (fun v Hv => proj2 (C v Hv)) Q S HS) as (S' & HS'). exists S'. split; [exact HS'|]. split.
    + rewrite Cut. unfold cutw. apply bsum_ext. intros u Hu. apply bsum_ext. intros v Hv. rewrite !HS' by auto. reflexivity.
    + intros [(u & Hu & Su) (v & Hv & Sv)]. split; [exists (nth u mapping 0)|exists (nth v mapping 0)]; (split; [apply O1; auto|rewrite HS'; auto]).
Qed.
Print Assumptions C83_parallel_round.

(** C84: the parallel findTrivialCuts never changes anything: its degrees are unsigned, so that no node_degree is below
    improve = 0 *)
Theorem C84_parallel_trivial_cuts_idle : forall G mapping rev cut order, find_trivial_par G mapping rev cut order = (mapping, rev).
Proof. exact find_trivial_par_id. Qed.
Print Assumptions C84_parallel_trivial_cuts_idle.
Theorem C84_keeps_clustering_partial : forall G mapping rev cut order, clusters (length G) mapping rev ->
  clusters (length G) (fst (find_trivial_par G mapping rev cut order)) (snd (find_trivial_par G mapping rev cut order)).
Proof. intros G mapping rev cut order C. rewrite C84_parallel_trivial_cuts_idle. exact C. Qed.

(** two pairs of vertices with a heavy edge each, and vertex 2 between them *)
Definition tg : graph := gr [[(1, 9); (2, 1); (3, 2)]; [(0, 9); (4, 2)]; [(0, 1); (3, 3)]; [(0, 2); (4, 9); (2, 3)]; [(1, 2); (3, 9)]].
(** C84, as it is meant: a cluster that a vertex can be split off from, leaving a cut below the target, is split, as the
    sequential version does *)
Theorem C84_splits_refuted : ~ forall G mapping rev cut order, undirected G -> clusters (length G) mapping rev -> Permutation order (seq 0 (length rev)) ->
  forall m' r', find_trivial_cuts G mapping rev cut = Some (m', r') -> length rev < length r' -> length rev < length (snd (find_trivial_par G mapping rev cut order)).
Proof.
  intro H. assert (X : 2 < 2); [|lia].
  refine (H tg [0; 1; 0; 1; 1] [[0; 2]; [1; 3; 4]] 7%N [0; 1] _ _ _ [2; 1; 0; 1; 1] [[2]; [1; 3; 4]; [0]] _ _).
  - apply good_ok. reflexivity.
  - constructor; [reflexivity| |].
    + split; [intros u Hu; do 5 (destruct u as [|u]; [cbn; lia|]); cbn in Hu; lia|]. intros p Hp. destruct p as [|[|p]]; [exists 0|exists 1|cbn in Hp; lia]; (split; [cbn; lia|reflexivity]).
    + intros p Hp. destruct p as [|[|p]]; [reflexivity..|cbn in Hp; lia].
  - apply Permutation_refl.
  - vm_compute. reflexivity.
  - cbn. lia.
Qed.
Print Assumptions C84_splits_refuted.

(** ** a run with two threads: the vertices 0 and 1 look at each other at the same time and swap their labels, and swap them back *)
Example C83_case : undirected tg /\ dealt (length tg) [[0; 2]; [4; 1; 3]] /\ dealt (length tg) [[1; 3; 4]; [0; 2]] /\
  exists s1 s2, pl_run tg (fun _ _ => true) (pl_init tg [[0; 2]; [4; 1; 3]]) (concat (repeat [0; 1; 1; 0; 1] 8)) = Some s1 /\ pl_done s1 /\ p_cl s1 = [1; 0; 3; 3; 3] /\
    pl_run tg (fun _ _ => true) (pl_again s1 [[1; 3; 4]; [0; 2]]) (concat (repeat [1; 0; 0] 9)) = Some s2 /\ pl_done s2 /\ p_cl s2 = [0; 1; 3; 3; 3] /\
    remap_cluster tg (p_cl s2) = Some ([0; 1; 2; 2; 2], [[0]; [1]; [2; 3; 4]]).
Proof.
  split; [apply good_ok; reflexivity|]. split; [apply NoDup_Permutation; [repeat constructor; cbn; intuition lia|apply seq_NoDup|]; intro x; rewrite in_seq; cbn; lia|]. split; [apply NoDup_Permutation; [repeat constructor; cbn; intuition lia|apply seq_NoDup|]; intro x; rewrite in_seq; cbn; lia|].
  eexists. eexists. split; [vm_compute; reflexivity|]. split; [intros t [<-|[<-|[]]]; auto|]. split; [reflexivity|]. split; [vm_compute; reflexivity|]. split; [intros t [<-|[<-|[]]]; auto|]. split; [reflexivity|]. vm_compute. reflexivity.
Qed.
