(* Prop_Cluster.v - property C47: label propagation, remap_cluster and findTrivialCuts give clusterings. *)
From Verif Require Import SpecCut SpecCluster M_Cluster P_Cut P_Contract P_Cluster Prop_Noi.

(** C47: whatever the vertex order (also a wrong one with repeated or missing vertices) and the random
    bits, propagate_labels and remap_cluster return consecutive cluster numbers, each used, with the reverse
    mapping listing exactly the members; two vertices are in one cluster iff they have the same label. *)
Theorem C47_labels_give_clustering : forall coin perm G, undirected G -> (forall v, In v perm -> v < length G) ->
  exists labels mapping rev, propagate_labels coin perm G = Some labels /\
    remap_cluster G labels = Some (mapping, rev) /\ clusters (length G) mapping rev /\
    forall x y, x < length G -> y < length G -> (nth x mapping 0 = nth y mapping 0 <-> nth x labels 0 = nth y labels 0).
Proof.
  intros coin perm G U Pm. destruct (propagate_ok coin perm G U Pm) as (cl & E & L & R).
  destruct (remap_ok G cl L R) as (m & r & E' & C & Q). exists cl, m, r. auto.
Qed.
Print Assumptions C47_labels_give_clustering.

(** C47: splitting clusters by findTrivialCuts keeps a clustering, whatever the value of the cut *)
Theorem C47_find_trivial_cuts_clustering : forall G mapping rev cut, clusters (length G) mapping rev ->
  exists mapping' rev', find_trivial_cuts G mapping rev cut = Some (mapping', rev') /\ clusters (length G) mapping' rev'.
Proof. exact find_trivial_ok. Qed.
Print Assumptions C47_find_trivial_cuts_clustering.

(** every vertex is in exactly the member list its cluster number says *)
Theorem C47_reverse_mapping_exact : forall n mapping rev, clusters n mapping rev ->
  forall p v, p < length rev -> (In v (nth p rev []) <-> v < n /\ nth v mapping 0 = p).
Proof.
  intros n mapping rev [L C R] p v Hp. rewrite R by auto. rewrite filter_In, in_seq, Nat.eqb_eq. intuition lia.
Qed.
Print Assumptions C47_reverse_mapping_exact.

(** Example: the two triangles of C13 with heavier links inside are found. *)
Example c47_run : propagate_labels (fun _ => false) [5; 0; 2; 1; 4; 3] c13_graph = Some [1; 1; 1; 3; 3; 3] /\
  remap_cluster c13_graph [1; 1; 1; 3; 3; 3] = Some ([0; 0; 0; 1; 1; 1], [[0; 1; 2]; [3; 4; 5]]).
Proof. split; vm_compute; reflexivity. Qed.
Example c47_trivial : exists m r, find_trivial_cuts c13_graph [0; 0; 0; 1; 1; 1] [[0; 1; 2]; [3; 4; 5]] 6 = Some (m, r).
Proof. eexists _, _. vm_compute. reflexivity. Qed.
