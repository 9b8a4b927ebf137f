(* M_GraphAlg.v - model of lib/algorithms/misc/graph_algorithms.h (the two validity checks and the vertices
   of largest degree) and of centralFlowEdge in global_mincut/cactus/recursive_cactus.h. *)
From Verif Require Export M_Mutable M_BfsDist.
From Verif Require M_Graph.

(* * checkGraphValidity(mutableGraphPtr).  Results: None: access out of range; Some None: exit(1) *)

(* graph_algorithms.h:107-112 *)
Fixpoint chk_cont (pos : list nat) (v : nat) (xs : list nat) : option bool :=
  match xs with
  | [] => Some true
  | x :: xs' => match nth_error pos x with None => None | Some p => if p =? v then chk_cont pos v xs' else Some false end
  end.

(* graph_algorithms.h:117-164 the loop over the edges of v, from edge k on.  NodeID rev: the 64 bit reverse
   index is not cut to 32 bits here. *)
Fixpoint chk_row (rows : list (list half)) (v k : nat) (row : list half) (seen : list nat) (weight : N) : option (option N) :=
  match row with
  | [] => Some (Some weight)
  | (t, w, r) :: row' =>
      if existsb (Nat.eqb t) seen then Some None
      else if t =? v then Some None
      else if length rows <=? t then Some None
      else match slot rows t r with
           | None => None
           | Some (t2, w2, r2) =>
               if negb (t2 =? v) then Some None
               else if negb (w2 =? w)%N then Some None
               else if negb (r2 =? k) then Some None
               else chk_row rows v (S k) row' (t :: seen) (weight + w)%N
           end
  end.

(* graph_algorithms.h:106-172 the loop over the vertices; the result is the number of edges *)
Fixpoint chk_nodes (G : mg) (vs : list nat) (edges : N) : option (option N) :=
  match vs with
  | [] => Some (Some edges)
  | v :: vs' =>
      match nth_error (m_cont G) v with
      | None => None
      | Some xs =>
          match chk_cont (m_pos G) v xs with
          | None => None
          | Some false => Some None
          | Some true =>
              match chk_row (m_rows G) v 0 (nth v (m_rows G) []) [] 0%N with
              | None => None
              | Some None => Some None
              | Some (Some weight) =>
                  match nth_error (m_deg G) v with
                  | None => None
                  | Some d => if (weight =? d)%N then chk_nodes G vs' (edges + N.of_nat (length (nth v (m_rows G) [])))%N else Some None
                  end
              end
          end
      end
  end.

(* graph_algorithms.h:104-180; Some true: "Graph is valid!", Some false: exit(1), None: access out of range *)
Definition check_mutable (G : mg) : option bool :=
  match chk_nodes G (seq 0 (m_n G)) 0%N with
  | None => None
  | Some None => Some false
  | Some (Some edges) => Some (edges =? m_ne G)%N
  end.

(* * checkGraphValidity(graphAccessPtr) *)

(* graph_algorithms.h:228-234 uint64_from_pair *)
Definition pair_key (a b : nat) : N := N.lor (N.shiftl (N.of_nat a) 32) (N.of_nat b).

(* graph_algorithms.h:57-59, 75, 83-84: the map weights.  find *)
Definition key_find (k : N) (m : list (N * N)) : option N :=
  match find (fun x => (fst x =? k)%N) m with Some x => Some (snd x) | None => None end.

(* graph_algorithms.h:61-94 the loops over nodes and edges, for the list of all edges (source, target, weight)
   in the order of the loops; None: exit(1), else reverse_found *)
Fixpoint chk_edges (n : nat) (es : list (nat * nat * N)) (m : list (N * N)) (found : nat) : option nat :=
  match es with
  | [] => Some found
  | (s, t, w) :: es' =>
      if n <=? t then None
      else match key_find (pair_key s t) m with
           | Some _ => None
           | None =>
               match key_find (pair_key t s) m with
               | Some w' => if (w' =? w)%N then chk_edges n es' ((pair_key s t, w) :: m) (S found) else None
               | None => chk_edges n es' ((pair_key s t, w) :: m) found
               end
           end
  end.

(* graph_algorithms.h:60-61 all edges in the order of the two loops *)
Definition all_edges (g : M_Graph.csr) : list (nat * nat * N) :=
  flat_map (fun v => map (fun e => (v, fst e, snd e)) (M_Graph.edges_of g v)) (seq 0 (M_Graph.num_nodes g)).

(* graph_algorithms.h:56-102 *)
Definition check_static (g : M_Graph.csr) : bool :=
  match chk_edges (M_Graph.num_nodes g) (all_edges g) [] 0 with
  | None => false
  | Some found => found * 2 =? M_Graph.num_edges g
  end.

(* * top_k_degrees *)

(* graph_algorithms.h:215-227 find_top_k; nth_element is given as a function on lists *)
Definition find_top_k (nth_element : nat -> list (nat * N) -> list (nat * N)) (l : list (nat * N)) (k : nat) : option (list nat) :=
  if length l <? k then None else Some (map fst (skipn (length l - k) (nth_element (length l - k) l))).

(* graph_algorithms.h:38-46 top_k_degrees for a mutable graph *)
Definition top_k_degrees (nth_element : nat -> list (nat * N) -> list (nat * N)) (G : mg) (k : nat) : option (list nat) :=
  find_top_k nth_element (map (fun v => (v, nth v (m_deg G) 0%N)) (seq 0 (m_n G))) k.

(* * centralFlowEdge *)

(* getEdgeTarget(v, e) for all v and e in edges_of(v) *)
Definition targets (G : mg) : list (list nat) := map (map (fun x : half => fst (fst x))) (m_rows G).

(* recursive_cactus.h:492-498; None: exit(1) or access out of range *)
Fixpoint walk_up (cnt : nat) (par : list (option nat)) (dist : list nat) (d v : nat) : option nat :=
  match cnt with
  | 0 => Some v
  | S c => if nth v dist 0 =? d then match nth v par None with Some p => walk_up c par dist (d - 1) p | None => None end else None
  end.

(* recursive_cactus.h:500-504 the first edge of v with target p *)
Fixpoint edge_to (row : list half) (p k : nat) : option nat :=
  match row with
  | [] => None
  | (t, _, _) :: row' => if t =? p then Some k else edge_to row' p (S k)
  end.

(* recursive_cactus.h:486-508 centralFlowEdge, r: the random vertex; None: exit(1) or an undefined vertex *)
Definition central_flow_edge (G : mg) (r : nat) : option (nat * nat * nat) :=
  match bfs_distances (targets G) r with
  | Some (_, _, Some v1) =>
      match bfs_distances (targets G) v1 with
      | Some (par, dist, Some v2) =>
          let D := nth v2 dist 0 in
          match walk_up (D - (D + 1) / 2) par dist D v2 with
          | Some v =>
              match nth v par None with
              | Some p => match edge_to (nth v (m_rows G) []) p 0 with Some e => Some (v, e, p) | None => None end
              | None => None
              end
          | None => None
          end
      | _ => None
      end
  | _ => None
  end.
