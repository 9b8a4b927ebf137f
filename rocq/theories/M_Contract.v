(* M_Contract.v - model of the static-graph part of lib/coarsening/contract_graph.h.
   The input graph is read through edges_of, so it is given as its list of edge lists (adj_of below;
   by C08 that is what a built graph_access reports).  Weights are unbounded.  The iteration order of
   std::unordered_set is an arbitrary function [ord] (of the coarse vertex and the inserted elements)
   returning a permutation.  An out-of-range vector access is None. *)
From Verif Require Export M_UnionFind M_Graph SpecCut.

(* graph_access.h:547-553 the edge lists of all nodes *)
Definition adj_of (g : csr) : graph := map (edges_of g) (seq 0 (num_nodes g)).

(* contract_graph.h:263-288 body of the edge loop for coarse vertex p: edge_positions (insertion
   order) and weights *)
Definition row_edge (mapping : list nat) (p : nat) (st : list nat * list N) (e : nat * N)
  : option (list nat * list N) :=
  let '(pos, ws) := st in
  let '(t, w) := e in
  if (w =? 0)%N then Some st
  else match nth_error mapping t with
  | None => None
  | Some ct =>
      if ct =? p then Some st
      else if ct <? length ws then
        if existsb (Nat.eqb ct) pos then Some (pos, upd ws ct (nth ct ws 0%N + w)%N)
        else Some (pos ++ [ct], upd ws ct w)
      else None
  end.

(* contract_graph.h:262-289 all edges of one node *)
Fixpoint row_edges (mapping : list nat) (p : nat) (st : list nat * list N) (es : list (nat * N))
  : option (list nat * list N) :=
  match es with
  | [] => Some st
  | e :: es' => match row_edge mapping p st e with Some st' => row_edges mapping p st' es' | None => None end
  end.

(* contract_graph.h:260-290 all nodes of one cluster *)
Fixpoint row_nodes (G : graph) (mapping : list nat) (p : nat) (st : list nat * list N) (ns : list nat)
  : option (list nat * list N) :=
  match ns with
  | [] => Some st
  | v :: ns' =>
      match nth_error G v with
      | None => None
      | Some es => match row_edges mapping p st es with
                   | Some st' => row_nodes G mapping p st' ns' | None => None end
      end
  end.

(* contract_graph.h:257-295 the loop over coarse vertices; weights is not cleared in between.  Result:
   the list of new_edge(p, tgt, weights[tgt]) calls per p *)
Fixpoint contract_rows (ord : nat -> list nat -> list nat) (G : graph) (mapping : list nat) (p : nat)
    (ws : list N) (rev : list (list nat)) : option graph :=
  match rev with
  | [] => Some []
  | ns :: rev' =>
      match row_nodes G mapping p ([], ws) ns with
      | None => None
      | Some (pos, ws') =>
          match contract_rows ord G mapping (S p) ws' rev' with
          | None => None
          | Some rows => Some (map (fun t => (t, nth t ws' 0%N)) (ord p pos) :: rows)
          end
      end
  end.

(* contract_graph.h:244-303 contractGraphSparse (static graph), 236-242 contractGraph *)
Definition contract (ord : nat -> list nat -> list nat) (G : graph) (mapping : list nat)
    (rev : list (list nat)) : option graph :=
  contract_rows ord G mapping 0 (repeat 0%N (length rev)) rev.

(* contract_graph.h:257-259, 291-300 the construction calls made for these rows *)
Definition script_of (rows : graph) : list bop :=
  flat_map (fun p => BNode :: map (fun e => BEdge p (fst e) (snd e)) (nth p rows [])) (seq 0 (length rows)).

(* contract_graph.h:219-231 numbering of the sets of the union-find; part[] as options *)
Fixpoint number_sets (u : uf) (part : list (option nat)) (cur : nat) (mapping : list nat)
    (rev : list (list nat)) (vs : list nat) : option (list nat * list (list nat)) :=
  match vs with
  | [] => Some (mapping, rev)
  | v :: vs' =>
      match uf_find u v with
      | None => None
      | Some (u', r) =>
          if r <? length part then
            let '(part', cur', id) := match nth r part None with
                                      | Some id => (part, cur, id)
                                      | None => (upd part r (Some cur), S cur, cur) end in
            if id <? length rev then
              number_sets u' part' cur' (mapping ++ [id]) (upd rev id (nth id rev [] ++ [v])) vs'
            else None
          else None
      end
  end.

(* contract_graph.h:210-234 fromUnionFind: contracted graph and the mapping (also stored as partition
   index when save_cut is set) *)
Definition from_union_find (ord : nat -> list nat -> list nat) (G : graph) (u : uf)
  : option (graph * list nat) :=
  match number_sets u (repeat None (length G)) 0 [] (repeat [] (uf_n u)) (seq 0 (length G)) with
  | None => None
  | Some (mapping, rev) =>
      match contract ord G mapping rev with
      | None => None
      | Some H => Some (H, mapping)
      end
  end.

(* contract_graph.h:210-303 the same on the graph_access object, through its construction calls *)
Definition from_union_find_csr (ord : nat -> list nat -> list nat) (g : csr) (u : uf) : option csr :=
  match from_union_find ord (adj_of g) u with
  | None => None
  | Some (H, _) => build (length H) (num_edges g) (script_of H)
  end.
