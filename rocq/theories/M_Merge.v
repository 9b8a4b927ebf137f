(* M_Merge.v - model of graph_modification::mergeGraphs and canonizeCactus
   (lib/algorithms/global_mincut/cactus/graph_modification.h:29-171).  exit(1) and accesses out of range are None; the
   assertions of the debug build are not modelled.  contractEdge is the version of M_Branch.v, in which the
   read behind the end of vertices is resolved as an empty vector. *)
From Verif Require Export M_Branch M_StCactus.

(* mutable_graph.h:364-366 setCurrentPosition for each of xs *)
Definition set_all_pos (xs : list nat) (p : nat) (M : mg) : option mg := fold_opt (fun M x => set_pos M x p) xs M.

(* graph_modification.h:44-49 a vertex c that the cactus G2 has at v2: kept at v1 if G1 has it there *)
Definition mg_keep (v1 : nat) (M : mg) (c : nat) : option mg :=
  match nth_error (m_pos M) c with
  | None => None
  | Some p => if p =? v1 then match set_pos M c v1 with Some M1 => add_cont M1 v1 c | None => None end else Some M
  end.

(* graph_modification.h:42-57 vertex i of G2 *)
Definition mg_node (v1 : nat) (G2 : mg) (v2 : nat) (M : mg) (i : nat) : option mg :=
  let xs := nth i (m_cont G2) [] in
  if i =? v2 then fold_opt (mg_keep v1) xs M
  else
    let v := m_last M in
    match set_all_pos xs v (new_empty_node M) with Some M1 => set_cont M1 v xs | None => None end.

(* graph_modification.h:60-62, 66 the new number of vertex n of G2; n1: the number of vertices of G1 before *)
Definition mg_id (n1 v1 v2 n : nat) : nat := if n =? v2 then v1 else n + n1 - (if v2 <? n then 1 else 0).

(* graph_modification.h:63-69 an edge of vertex n of G2 *)
Definition mg_edge (n1 v1 v2 n : nat) (M : mg) (h : half) : option mg :=
  if fst (fst h) =? v2 then Some M else m_new_edge M (mg_id n1 v1 v2 n) (mg_id n1 v1 v2 (fst (fst h))) (snd (fst h)).

(* graph_modification.h:59-70 the edges of vertex n of G2 *)
Definition mg_edges (n1 v1 : nat) (G2 : mg) (v2 : nat) (M : mg) (n : nat) : option mg :=
  fold_opt (mg_edge n1 v1 v2 n) (nth n (m_rows G2) []) M.

(* graph_modification.h:40-70 the graphs glued together at v1 and v2 *)
Definition glue (G1 : mg) (v1 : nat) (G2 : mg) (v2 : nat) : option mg :=
  match set_cont G1 v1 [] with
  | None => None
  | Some M0 =>
      match fold_opt (mg_node v1 G2 v2) (seq 0 (m_n G2)) M0 with
      | None => None
      | Some M1 => fold_opt (mg_edges (m_n G1) v1 G2 v2) (seq 0 (m_n G2)) M1
      end
  end.

(* graph_modification.h:81-94 the edges of the vertex from number e on: tree neighbours with the edge, cycle neighbours, degree *)
Fixpoint cz_edges (mincut : N) (e : nat) (row : list half) : list (nat * nat) * list nat * N :=
  match row with
  | [] => ([], [], 0%N)
  | (t, w, _) :: row' =>
      let '(ts, cs, d) := cz_edges mincut (S e) row' in
      if (w =? mincut)%N then ((t, e) :: ts, cs, (w + d)%N) else (ts, t :: cs, (w + d)%N)
  end.

(* graph_modification.h:116-118, 131 the place in neighbors_cycle, from i on, of the first entry with this target *)
Fixpoint cz_place (tgt i : nat) (cs : list nat) : option nat :=
  match cs with [] => None | c :: cs' => if c =? tgt then Some i else cz_place tgt (S i) cs' end.

(* graph_modification.h:129-144 the edges of a vertex taken from the queue: Some (inl i): the match neighbors_cycle[i] *)
Fixpoint cz_scan (v : nat) (others : list nat) (row : list half) (q : list nat) : nat + list nat :=
  match row with
  | [] => inr q
  | (t, _, _) :: row' =>
      match cz_place t 1 others with
      | Some i => inl i
      | None => cz_scan v others row' (if t =? v then q else q ++ [t])
      end
  end.

(* graph_modification.h:126-145 the search; seen is never set except for the vertex itself.  None: not finished within fuel *)
Fixpoint cz_bfs (fuel : nat) (rows : list (list half)) (v : nat) (others : list nat) (q : list nat) : option (option nat) :=
  match fuel with
  | 0 => None
  | S fuel =>
      match q with
      | [] => Some None
      | n :: q =>
          match cz_scan v others (nth n rows []) q with
          | inl i => Some (Some i)
          | inr q => cz_bfs fuel rows v others q
          end
      end
  end.

(* graph_modification.h:112-149 the pairs of neighbours on a cycle.  A search without a match is repeated for ever: None *)
Fixpoint cz_pairs (fuel k : nat) (rows : list (list half)) (v : nat) (cs : list nat) : option (list (nat * nat)) :=
  match k with
  | 0 => None
  | S k =>
      match cs with
      | [] => Some []
      | [a] => Some []
      | [a; b] => Some [(a, b)]
      | a :: others =>
          match cz_bfs fuel rows v others [a] with
          | Some (Some i) =>
              option_map (cons (a, nth (i - 1) others 0)) (cz_pairs fuel k rows v (firstn (i - 1) others ++ skipn i others))
          | _ => None
          end
      end
  end.

(* graph_modification.h:154-160 a new vertex for a pair *)
Definition cz_pair (mincut : N) (b : mg * list nat) (p : nat * nat) : option (mg * list nat) :=
  let v := m_last (fst b) in
  match new_edge_order (new_empty_node (fst b)) v (fst p) (mincut / 2) with
  | None => None
  | Some M => option_map (fun M => (M, snd b ++ [v])) (new_edge_order M v (snd p) (mincut / 2))
  end.

(* graph_modification.h:110-168 an empty vertex with three junctions is replaced by a triangle *)
Definition cz_triangle (fuel : nat) (C : mg) (v : nat) (mincut : N) (ts cs : list nat) : option mg :=
  match cz_pairs fuel (S (length cs)) (m_rows C) v cs with
  | None => None
  | Some ps =>
      match fold_opt (cz_pair mincut) ps (C, []) with
      | None => None
      | Some (M, ns) =>
          match ns ++ ts with
          | a :: b :: c :: _ =>
              match fold_opt (fun M e => new_edge_order M (fst e) (snd e) (mincut / 2)) [(a, b); (a, c); (b, c)] M with
              | None => None
              | Some M => m_delete_vertex M v
              end
          | _ => None
          end
      end
  end.

(* graph_modification.h:76-171 canonizeCactus; fuel: steps of each search *)
Definition canonize (fuel : nat) (C : mg) (v : nat) (mincut : N) : option mg :=
  let '(ts, cs, d) := cz_edges mincut 0 (nth v (m_rows C) []) in
  if (mincut =? 0)%N then None
  else if negb (d mod mincut =? 0)%N then None
  else if (d / mincut =? 2)%N then match ts with (_, e) :: _ => contract_edge_std C v e | [] => Some C end
  else if (d / mincut =? 3)%N then cz_triangle fuel C v mincut (map fst ts) cs
  else Some C.

(* graph_modification.h:29-74 mergeGraphs *)
Definition merge_graphs (fuel : nat) (G1 : mg) (v1 : nat) (G2 : mg) (v2 : nat) (mincut : N) : option mg :=
  if m_n G2 =? 1 then Some G1
  else if m_n G1 =? 1 then Some G2
  else
    match glue G1 v1 G2 v2 with
    | None => None
    | Some M => match nth v1 (m_cont M) [] with [] => canonize fuel M v1 mincut | _ => Some M end
    end.
