(* SpecCluster.v - specification: a clustering given by a mapping and the list of its clusters.
   Independent of the models. *)
From Verif Require Export SpecCut.

(** mapping sends every vertex to its cluster, clusters are numbered consecutively and used, and rev
    lists for every cluster its members in increasing order *)
Record clusters (n : nat) (mapping : list nat) (rev : list (list nat)) : Prop := {
  cl_len : length mapping = n;
  cl_on : clustering n (fun v => nth v mapping 0) (length rev);
  cl_rev : forall p, p < length rev -> nth p rev [] = filter (fun v => nth v mapping 0 =? p) (seq 0 n) }.
