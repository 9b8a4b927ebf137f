(* M_FlowGraph.v - model of lib/data_structure/flow_graph.h.  Capacities and flows are unbounded integers (64 bits in the code), m_num_edges is
   not truncated to 32 bits.  None: an access out of range. *)
From Verif Require Export Lib.
From Coq Require Export ZArith.

(* flow_graph.h:22-37 rEdge *)
Record redg := mk_redg { r_src : nat; r_tgt : nat; r_cap : Z; r_flow : Z; r_rev : nat }.
(* flow_graph.h:100-103 m_adjacency_lists, m_capacity, m_num_edges *)
Record fgraph := mk_fg { fg_adj : list (list redg); fg_cap : list Z; fg_m : nat }.
(* flow_graph.h:51-56 start_construction of a new object *)
Definition fg_start (n : nat) : fgraph := mk_fg (repeat [] n) (repeat 0%Z n) 0.
(* flow_graph.h:71-80 new_edge *)
Definition fg_new (g : fgraph) (u v : nat) (c : Z) : option fgraph :=
  if (u <? length (fg_adj g)) && (v <? length (fg_adj g)) then
    let adj1 := upd (fg_adj g) u (nth u (fg_adj g) [] ++ [mk_redg u v c 0 (length (nth v (fg_adj g) []))]) in
    let adj2 := upd adj1 v (nth v adj1 [] ++ [mk_redg v u 0 0 (length (nth u adj1 []) - 1)]) in
    Some (mk_fg adj2 (upd (fg_cap g) u (nth u (fg_cap g) 0%Z + c)%Z) (fg_m g + 2))
  else None.
(* flow_graph.h:82-84 getCapacity *)
Definition fg_capacity (g : fgraph) (u : nat) : option Z := nth_error (fg_cap g) u.
(* flow_graph.h:106-149 the accessors read m_adjacency_lists[source][e] *)
Definition fg_edge (g : fgraph) (u e : nat) : option redg := match nth_error (fg_adj g) u with Some es => nth_error es e | None => None end.
(* flow_graph.h:115-122 setEdgeFlow *)
Definition fg_set (g : fgraph) (u e : nat) (f : Z) : option fgraph :=
  match fg_edge g u e with
  | Some r => Some (mk_fg (upd (fg_adj g) u (upd (nth u (fg_adj g) []) e (mk_redg (r_src r) (r_tgt r) (r_cap r) f (r_rev r)))) (fg_cap g) (fg_m g))
  | None => None
  end.
(* a history of the two calls that change the graph, flow_graph.h:71, 115 *)
Inductive fop := FNew (u v : nat) (c : Z) | FSet (u e : nat) (f : Z).
Fixpoint fg_run (g : fgraph) (os : list fop) : option fgraph :=
  match os with
  | [] => Some g
  | FNew u v c :: os' => match fg_new g u v c with Some g' => fg_run g' os' | None => None end
  | FSet u e f :: os' => match fg_set g u e f with Some g' => fg_run g' os' | None => None end
  end.
(* graph_io.h:315-334 createFlowGraph; G: the edges of each vertex *)
Definition create_flow_graph (G : list (list (nat * N))) : option fgraph :=
  fg_run (fg_start (length G)) (flat_map (fun u => map (fun e => FNew u (fst e) (Z.of_N (snd e))) (nth u G [])) (seq 0 (length G))).
