(* M_CoreGraph.v - model of core_decomposition.h createCoreGraph.  The
   graph is the list of its (target, weight) rows; the core graph is built with the calls of M_Graph. *)
From Verif Require Export M_Core M_Contract M_Scc.

(* core_decomposition.h:110 position[node] >= buckets[k] *)
Definition core_sel (kc : k_cores) (k v : nat) : bool := nth k (k_buck kc) 0 <=? nth v (k_pos kc) 0.
(* core_decomposition.h:109-117 the vector core *)
Definition core_list (kc : k_cores) (k n : nat) : list nat := filter (core_sel kc k) (seq 0 n).
(* core_decomposition.h:105, 111 the vector reverse *)
Definition core_rev (kc : k_cores) (k n v : nat) : nat := if core_sel kc k v then length (filter (core_sel kc k) (seq 0 v)) else n.
(* core_decomposition.h:124-134 the edges of one core vertex; setEdgeWeight on the new edge is merged with
   new_edge *)
Definition core_row (kc : k_cores) (k n : nat) (row : list (nat * N)) : list (nat * N) :=
  flat_map (fun e => let t := core_rev kc k n (fst e) in if t =? n then [] else [(t, snd e)]) row.
(* core_decomposition.h:103-142.  None: access out of range; Some None: exit(1) with "Wrong min degree" *)
Definition core_graph (kc : k_cores) (k : nat) (rows : list (list (nat * N))) : option (option csr) :=
  let n := length rows in
  let b := nth k (k_buck kc) 0 in
  if (k <? length (k_buck kc)) && (b <? length (k_vert kc)) && (nth b (k_vert kc) 0 <? length (k_deg kc)) then
    let min_degree := nth (nth b (k_vert kc) 0) (k_deg kc) 0 in
    let rs := map (fun v => core_row kc k n (nth v rows [])) (core_list kc k n) in
    match build (length rs) (2 * list_sum (map (fun v => nth v (k_deg kc) 0) (core_list kc k n))) (script_of rs) with
    | None => None
    | Some h => let '(h', md) := get_min_degree h in if (md =? N.of_nat min_degree)%N then Some (Some h') else Some None
    end
  else None.

(* core_decomposition.h:144-147 the largest connected component of it *)
Definition create_core_graph (kc : k_cores) (k : nat) (rows : list (list (nat * N))) : option (option csr) :=
  match core_graph kc k rows with
  | None => None
  | Some None => Some None
  | Some (Some h) => match largest_scc (adj_of h) with Some g => Some (Some g) | None => None end
  end.
