(* M_Graph.v - model of the static graph lib/data_structure/graph_access.h: construction, edge
   ranges, degrees.  Vectors of the freshly created object are empty; `resize` zero-initialises.
   Edge weights and degree sums are unbounded (the code uses uint64).  Asserts (VIECUT_ASSERT_TRUE)
   and .at() checks are not modelled; an access outside m_nodes is None. *)
From Verif Require Export Lib.

(* graph_access.h:27-43, 176-186, 640-645.  c_nodes: m_nodes[i].firstEdge; c_edges: m_edges as
   (target, weight); c_last1: m_last_source + 1; c_node, c_e: node, e; c_comp: m_degrees_computed;
   c_min, c_max: m_min_degree, m_max_degree; c_deg: m_degree. *)
Record csr := mk_csr {
  c_nodes : list nat; c_edges : list (nat * N); c_last1 : nat; c_node : nat; c_e : nat;
  c_comp : bool; c_min : N; c_max : N; c_deg : list N }.

(* graph_access.h:305-308, 85-98 start_construction on a new object (m only reserves memory) *)
Definition start_construction (n m : nat) : csr :=
  mk_csr (repeat 0 (n + 1)) [] 0 0 0 false 0%N 0%N [].

(* the loops of graph_access.h:140-142 and 167-169: for (i = hi; i > lo; i--) m_nodes[i] = x *)
Fixpoint fill (l : list nat) (lo hi x : nat) : list nat :=
  match hi with
  | 0 => l
  | S h => if lo <? hi then fill (upd l hi x) lo h x else l
  end.

(* graph_access.h:123-146 new_edge *)
Definition new_edge (g : csr) (s t : nat) (w : N) : option csr :=
  if s =? t then Some g
  else if s + 1 <? length (c_nodes g) then
    let e' := S (c_e g) in
    let nodes1 := upd (c_nodes g) (s + 1) e' in
    let nodes2 := if c_last1 g <? s then fill nodes1 (c_last1 g) s (nth (c_last1 g) nodes1 0) else nodes1 in
    Some (mk_csr nodes2 (c_edges g ++ [(t, w)]) (s + 1) (c_node g) e'
                 (c_comp g) (c_min g) (c_max g) (c_deg g))
  else None.

(* graph_access.h:148-151 new_node *)
Definition new_node (g : csr) : csr :=
  mk_csr (c_nodes g) (c_edges g) (c_last1 g) (S (c_node g)) (c_e g) (c_comp g) (c_min g) (c_max g) (c_deg g).

(* graph_access.h:69-74 number_of_nodes, 65-67 number_of_edges *)
Definition num_nodes (g : csr) : nat := length (c_nodes g) - 1.
Definition num_edges (g : csr) : nat := length (c_edges g).

(* graph_access.h:370-373, 153-171 finish_construction *)
Definition finish_construction (g : csr) : option csr :=
  if c_node g <? length (c_nodes g) then
    let nodes' := if c_last1 g =? c_node g then c_nodes g
                  else fill (c_nodes g) (c_last1 g) (c_node g) (nth (c_last1 g) (c_nodes g) 0) in
    Some (mk_csr nodes' (c_edges g) (c_last1 g) (c_node g) (c_e g) (c_comp g) (c_min g) (c_max g)
                 (repeat 0%N (num_nodes g)))
  else None.

(* graph_access.h:394-404 get_first_edge, get_first_invalid_edge *)
Definition first_edge (g : csr) (v : nat) : nat := nth v (c_nodes g) 0.
Definition first_invalid (g : csr) (v : nat) : nat := nth (v + 1) (c_nodes g) 0.

(* graph_access.h:330-332, 547-553 edges_of with getEdge: the (target, weight) pairs of a node *)
Definition edges_of (g : csr) (v : nat) : list (nat * N) :=
  firstn (first_invalid g v - first_edge g v) (skipn (first_edge g v) (c_edges g)).

(* graph_access.h:338-345 getEdgeSource: lower_bound on the ascending firstEdge array is the number
   of entries <= edge (std::lower_bound's contract on a partitioned range), minus 1 *)
Definition edge_source (g : csr) (e : nat) : nat :=
  length (filter (fun f => f <=? e) (c_nodes g)) - 1.

(* graph_access.h:596-607 find_reverse_edge: first edge of the target leading back; None = the -1 *)
Definition find_reverse_edge (g : csr) (e : nat) : option nat :=
  let src := edge_source g e in
  let tgt := fst (nth e (c_edges g) (0, 0%N)) in
  find (fun re => fst (nth re (c_edges g) (0, 0%N)) =? src)
       (seq (first_edge g tgt) (first_invalid g tgt - first_edge g tgt)).

(* graph_access.h:567-573 setEdgeWeight; out of range writes are None *)
Definition set_edge_weight (g : csr) (e : nat) (w : N) : option csr :=
  if e <? length (c_edges g) then
    Some (mk_csr (c_nodes g) (upd (c_edges g) e (fst (nth e (c_edges g) (0, 0%N)), w))
                 (c_last1 g) (c_node g) (c_e g) (c_comp g) (c_min g) (c_max g) (c_deg g))
  else None.

(* graph_access.h:480-482 sum over edges_of *)
Definition sum_deg (g : csr) (v : nat) : N := sumN snd (edges_of g v).

(* common/definitions.h UNDEFINED_EDGE = max of uint64 *)
Definition u64max : N := 18446744073709551615%N.

(* graph_access.h:470-495 computeDegrees *)
Definition compute_degrees (g : csr) : csr :=
  if c_comp g then g
  else
    let ds := map (sum_deg g) (seq 0 (num_nodes g)) in
    mk_csr (c_nodes g) (c_edges g) (c_last1 g) (c_node g) (c_e g) true
      (fold_left (fun m d => if (d <? m)%N then d else m) ds u64max)
      (fold_left (fun m d => if (m <? d)%N then d else m) ds 0%N) ds.

(* graph_access.h:437-448 getWeightedNodeDegree *)
Definition get_degree (g : csr) (v : nat) : N :=
  if c_comp g then nth v (c_deg g) 0%N else sum_deg g v.

(* graph_access.h:517-523 getMinDegree, 450-456 getMaxDegree: they may compute the degrees *)
Definition get_min_degree (g : csr) : csr * N := let g' := compute_degrees g in (g', c_min g').
Definition get_max_degree (g : csr) : csr * N := let g' := compute_degrees g in (g', c_max g').

(* a session on a finished graph: graph_access.h:567-573 setEdgeWeight, 437-448
   getWeightedNodeDegree, 517-523 getMinDegree, 450-456 getMaxDegree *)
Inductive gcall := GSet (e : nat) (w : N) | GDeg (v : nat) | GMin | GMax.
(* one call of such a session (same lines): new object and the value returned, if any *)
Definition g_call (g : csr) (c : gcall) : option (csr * option N) :=
  match c with
  | GSet e w => match set_edge_weight g e w with Some g' => Some (g', None) | None => None end
  | GDeg v => if v <? num_nodes g then Some (g, Some (get_degree g v)) else None
  | GMin => let '(g', d) := get_min_degree g in Some (g', Some d)
  | GMax => let '(g', d) := get_max_degree g in Some (g', Some d)
  end.
(* a whole session (same lines); a list cut short means an access out of range *)
Fixpoint g_session (g : csr) (cs : list gcall) : list (option N) :=
  match cs with
  | [] => []
  | c :: cs' => match g_call g c with Some (g', r) => r :: g_session g' cs' | None => [] end
  end.

(* a build script: the calls between start_construction and finish_construction *)
Inductive bop := BNode | BEdge (s t : nat) (w : N).

(* graph_access.h:310-320 the calls in order *)
Fixpoint build_ops (g : csr) (ops : list bop) : option csr :=
  match ops with
  | [] => Some g
  | BNode :: ops' => build_ops (new_node g) ops'
  | BEdge s t w :: ops' => match new_edge g s t w with Some g' => build_ops g' ops' | None => None end
  end.

(* graph_access.h:305-320, 370-373 a whole construction *)
Definition build (n m : nat) (ops : list bop) : option csr :=
  match build_ops (start_construction n m) ops with
  | Some g => finish_construction g
  | None => None
  end.

(* graph_access.h:752-767 copy: rebuilds through new_edge with weight 1 and setEdgeWeight on the
   returned edge id *)
Fixpoint copy_edges (g : csr) (v : nat) (es : list (nat * N)) : option csr :=
  match es with
  | [] => Some g
  | (t, w) :: es' =>
      match new_edge g v t 1 with
      | Some g1 => match set_edge_weight g1 (c_e g) w with   (* e_bar = old e *)
                   | Some g2 => copy_edges g2 v es' | None => None end
      | None => None
      end
  end.
Fixpoint copy_nodes (src g : csr) (vs : list nat) : option csr :=
  match vs with
  | [] => Some g
  | v :: vs' => match copy_edges (new_node g) (c_node g) (edges_of src v) with
                | Some g' => copy_nodes src g' vs' | None => None end
  end.
Definition copy (src : csr) : option csr :=
  match copy_nodes src (start_construction (num_nodes src) (num_edges src)) (seq 0 (num_nodes src)) with
  | Some g => finish_construction g
  | None => None
  end.
