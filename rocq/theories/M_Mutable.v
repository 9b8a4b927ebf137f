(* M_Mutable.v - model of lib/data_structure/mutable_graph.h.  An out-of-range access, exit() or
   undefined behaviour is None.  Flow fields are not modelled.  Weights and counts are unbounded. *)
From Verif Require Export SpecMutable.

(* mutable_graph.h:961-975 the members *)
Record mg := mk_mg { m_rows : list (list half); m_deg : list N; m_part : list nat; m_cut : list bool;
                     m_pos : list nat; m_cont : list (list nat); m_last : nat; m_ne : N; m_pc : nat; m_orig : nat }.

(* mutable_graph.h:215-217 number_of_nodes *)
Definition m_n (G : mg) : nat := length (m_rows G).

(* mutable_graph.h:28-56, 962 vertices[v][e], a RevEdge *)
Definition slot (rows : list (list half)) (v e : nat) : option half := nth_error (nth v rows []) e.

(* mutable_graph.h:962 vertices[v][e] = x, in range *)
Definition rset (rows : list (list half)) (v e : nat) (x : half) : list (list half) :=
  upd rows v (upd (nth v rows []) e x).

(* vertices[v][e].reverse_edge = r, as in mutable_graph.h:614-615 *)
Definition set_rev (rows : list (list half)) (v e r : nat) : option (list (list half)) :=
  match slot rows v e with Some (t, w, _) => Some (rset rows v e (t, w, r)) | None => None end.
(* vertices[v][e].target = t, as in mutable_graph.h:616 *)
Definition set_tgt (rows : list (list half)) (v e t : nat) : option (list (list half)) :=
  match slot rows v e with Some (_, w, r) => Some (rset rows v e (t, w, r)) | None => None end.
(* vertices[v][e].weight = w, as in mutable_graph.h:340-341 *)
Definition set_wgt (rows : list (list half)) (v e : nat) (w : N) : option (list (list half)) :=
  match slot rows v e with Some (t, _, r) => Some (rset rows v e (t, w, r)) | None => None end.
(* vertices[v][e].weight += w, as in mutable_graph.h:604-605 *)
Definition add_wgt (rows : list (list half)) (v e : nat) (w : N) : option (list (list half)) :=
  match slot rows v e with Some (t, w0, r) => Some (rset rows v e (t, (w0 + w)%N, r)) | None => None end.

(* vertices[v].emplace_back, as in mutable_graph.h:135-136 *)
Definition push (rows : list (list half)) (v : nat) (x : half) : list (list half) := upd rows v (nth v rows [] ++ [x]).

(* mutable_graph.h:78-90 start_construction on a new object *)
Definition start_construction (n : nat) : mg :=
  mk_mg (repeat [] n) (repeat 0%N n) (repeat 0 n) (repeat false n) (seq 0 n) (map (fun i => [i]) (seq 0 n)) 0 0 0 n.

(* mutable_graph.h:97-109 new_node; note emplace_back(last_node): a vector of last_node zeros *)
Definition new_node (G : mg) : mg :=
  if m_last G =? m_n G then
    mk_mg (m_rows G ++ [[]]) (m_deg G ++ [0%N]) (m_part G ++ [0]) (m_cut G ++ [false])
          (upd (m_pos G ++ [0]) (m_last G) (m_n G)) (m_cont G ++ [repeat 0 (m_last G)]) (S (m_last G)) (m_ne G) (m_pc G) (m_orig G)
  else mk_mg (m_rows G) (m_deg G) (m_part G) (m_cut G) (m_pos G) (m_cont G) (S (m_last G)) (m_ne G) (m_pc G) (m_orig G).

(* mutable_graph.h:115-125 new_empty_node *)
Definition new_empty_node (G : mg) : mg :=
  if m_last G =? m_n G then
    mk_mg (m_rows G ++ [[]]) (m_deg G ++ [0%N]) (m_part G ++ [0]) (m_cut G ++ [false])
          (m_pos G) (m_cont G ++ [[]]) (S (m_last G)) (m_ne G) (m_pc G) (m_orig G)
  else mk_mg (m_rows G) (m_deg G) (m_part G) (m_cut G) (m_pos G) (m_cont G) (S (m_last G)) (m_ne G) (m_pc G) (m_orig G).

(* mutable_graph.h:131-144 new_edge; source or target out of range: None; source >= target: no effect *)
Definition m_new_edge (G : mg) (s t : nat) (w : N) : option mg :=
  if s <? t then
    if t <? m_n G then
      let ti := length (nth t (m_rows G) []) in
      let si := length (nth s (m_rows G) []) in
      Some (mk_mg (push (push (m_rows G) s (t, w, ti)) t (s, w, si))
                  (upd (upd (m_deg G) s (nth s (m_deg G) 0 + w)%N) t (nth t (upd (m_deg G) s (nth s (m_deg G) 0 + w)) 0 + w)%N)
                  (m_part G) (m_cut G) (m_pos G) (m_cont G) (m_last G) (m_ne G + 2) (m_pc G) (m_orig G))
    else None
  else Some G.

(* mutable_graph.h:146-154 new_edge_order *)
Definition new_edge_order (G : mg) (s t : nat) (w : N) : option mg :=
  if s <? t then m_new_edge G s t w
  else if t <? s then m_new_edge G t s w else Some G.

(* mutable_graph.h:205-207 finish_construction *)
Definition m_finish (G : mg) : mg :=
  mk_mg (m_rows G) (m_deg G) (m_part G) (m_cut G) (m_pos G) (m_cont G) (m_n G) (m_ne G) (m_pc G) (m_orig G).

(* assignment to the members of mutable_graph.h:962, 963, 969: rows, degrees and the edge count *)
Definition with_rows (G : mg) (rows : list (list half)) (deg : list N) (ne : N) : mg :=
  mk_mg rows deg (m_part G) (m_cut G) (m_pos G) (m_cont G) (m_last G) ne (m_pc G) (m_orig G).

(* weighted_degree[v] += w and -= w, as in mutable_graph.h:138, 439 *)
Definition deg_add (d : list N) (v : nat) (w : N) : list N := upd d v (nth v d 0 + w)%N.
(* mutable_graph.h:439 *)
Definition deg_sub (d : list N) (v : nat) (w : N) : list N := upd d v (nth v d 0 - w)%N.

(* mutable_graph.h:332-346 setEdgeWeight *)
Definition m_set_weight (G : mg) (v e : nat) (w : N) : option mg :=
  match slot (m_rows G) v e with
  | None => None
  | Some (t, w0, r) =>
      match set_wgt (m_rows G) v e w with
      | None => None
      | Some rows1 =>
          match set_wgt rows1 t r w with
          | None => None
          | Some rows2 =>
              let d1 := upd (m_deg G) v (nth v (m_deg G) 0 + w - w0)%N in
              Some (with_rows G rows2 (upd d1 t (nth t d1 0 + w - w0)%N) (m_ne G))
          end
      end
  end.

(* mutable_graph.h:941-959 internalDeleteEdge *)
Definition internal_delete (rows : list (list half)) (v e : nat) : option (list (list half)) :=
  let row := nth v rows [] in
  if S e <? length row then
    let x := nth (length row - 1) row (0, 0%N, 0) in
    set_rev (upd rows v (removelast (upd row e x))) (fst (fst x)) (snd x) e
  else if length row =? 0 then None
  else Some (upd rows v (removelast row)).

(* mutable_graph.h:412-443 deleteEdge *)
Definition m_delete_edge (G : mg) (v e : nat) : option mg :=
  match slot (m_rows G) v e with
  | None => None
  | Some (t, w, r) =>
      (* lines 422-428 *)
      let row := nth v (m_rows G) [] in
      match (if S e <? length row then
               let x := nth (length row - 1) row (0, 0%N, 0) in
               set_rev (upd (m_rows G) v (upd row e x)) (fst (fst x)) (snd x) e
             else Some (m_rows G)) with
      | None => None
      | Some rows1 =>
          let rows2 := upd rows1 v (removelast (nth v rows1 [])) in
          (* lines 430-437 *)
          let trow := nth t rows2 [] in
          match (if S r <? length trow then
                   let y := nth (length trow - 1) trow (0, 0%N, 0) in
                   set_rev (upd rows2 t (upd trow r y)) (fst (fst y)) (snd y) r
                 else if length trow =? 0 then None else Some rows2) with
          | None => None
          | Some rows3 =>
              Some (with_rows G (upd rows3 t (removelast (nth t rows3 [])))
                      (deg_sub (deg_sub (m_deg G) v w) t w) (m_ne G - 2))
          end
      end
  end.

(* current_position[x] = p for all x in xs, as in mutable_graph.h:373-375 *)
Definition set_positions (pos : list nat) (xs : list nat) (p : nat) : list nat := fold_left (fun q x => upd q x p) xs pos.

(* the remapping loops (mutable_graph.h:391-396, 509-512, 559-562, 645-648, 780-785):
   vertices[tgt][rev].target = new for the edges e = k, k+1, ... of v *)
Fixpoint remap (cnt : nat) (rows : list (list half)) (v new k : nat) : option (list (list half)) :=
  match cnt with
  | 0 => Some rows
  | S cnt' =>
      match slot rows v k with
      | None => None
      | Some (t, _, r) =>
          match set_tgt rows t r new with
          | None => None
          | Some rows' => remap cnt' rows' v new (S k)
          end
      end
  end.

(* mutable_graph.h:382-389 deletion of the edges k, k+1, ... of v at their other ends *)
Fixpoint delete_incident (cnt : nat) (rows : list (list half)) (deg : list N) (ne : N) (v k : nat)
  : option (list (list half) * list N * N) :=
  match cnt with
  | 0 => Some (rows, deg, ne)
  | S cnt' =>
      match slot rows v k with
      | None => None
      | Some (t, w, r) =>
          match internal_delete rows t r with
          | None => None
          | Some rows' => delete_incident cnt' rows' (deg_sub deg t w) (ne - 2)%N v (S k)
          end
      end
  end.

(* moving the last entry to place v and popping (mutable_graph.h:398-405 and elsewhere) *)
Definition move_last {A} (l : list A) (v : nat) (d : A) : list A := removelast (upd l v (nth (length l - 1) l d)).

(* mutable_graph.h:368-409 deleteVertex; contained_in_this is not popped *)
Definition m_delete_vertex (G : mg) (v : nat) : option mg :=
  if m_n G <=? v then None
  else
    let back := m_n G - 1 in
    let pos1 := if v <? back then set_positions (set_positions (m_pos G) (nth back (m_cont G) []) v) (nth v (m_cont G) []) back
                else m_pos G in
    let cont1 := if v <? back then upd (m_cont G) v (nth back (m_cont G) []) else m_cont G in
    match delete_incident (length (nth v (m_rows G) [])) (m_rows G) (m_deg G) (m_ne G) v 0 with
    | None => None
    | Some (rows1, deg1, ne1) =>
        match (if v <? back then remap (length (nth back rows1 [])) rows1 back v 0 else Some rows1) with
        | None => None
        | Some rows2 =>
            Some (mk_mg (move_last rows2 v []) (move_last deg1 v 0%N) (move_last (m_part G) v 0) (move_last (m_cut G) v false)
                        pos1 cont1 (m_last G - 1) ne1 (m_pc G) (m_orig G))
        end
    end.

(* mutable_graph.h:584-598 the hash map of contractEdge: for the targets of row v except edge number skip,
   (reverse_edge, ed); emplace keeps the first entry *)
Fixpoint edge_map (row : list half) (skip k : nat) (m : list (option (nat * nat))) : list (option (nat * nat)) :=
  match row with
  | [] => m
  | (t, _, r) :: row' =>
      edge_map row' skip (S k)
        (if k =? skip then m else match nth t m None with None => upd m t (Some (r, k)) | Some _ => m end)
  end.

(* mutable_graph.h:600-627 the edges k, k+1, ... of target *)
Fixpoint contract_edges (cnt : nat) (m : list (option (nat * nat))) (skip node target k : nat)
    (st : list (list half) * list N * N) : option (list (list half) * list N * N) :=
  match cnt with
  | 0 => Some st
  | S cnt' =>
      let '(rows, deg, ne) := st in
      if k =? skip then contract_edges cnt' m skip node target (S k) st
      else
        match slot rows target k with
        | None => None
        | Some (t, w, r) =>
            match nth t m None with
            | Some (rev, ed2) =>
                match add_wgt rows node ed2 w with
                | None => None
                | Some rows1 =>
                    match add_wgt rows1 t rev w with
                    | None => None
                    | Some rows2 =>
                        match internal_delete rows2 t r with
                        | None => None
                        | Some rows3 => contract_edges cnt' m skip node target (S k) (rows3, deg_add deg node w, (ne - 2)%N)
                        end
                    end
                end
            | None =>
                match set_rev rows t r (length (nth node rows [])) with
                | None => None
                | Some rows1 =>
                    match set_tgt rows1 t r node with
                    | None => None
                    | Some rows2 =>
                        contract_edges cnt' m skip node target (S k) (push rows2 node (t, w, r), deg_add deg node w, ne)
                    end
                end
            end
        end
  end.

(* mutable_graph.h:566-658 contractEdge.  If the larger end is the last vertex, vertices[target] is read
   after pop_back (line 645): undefined *)
Definition m_contract_edge (G : mg) (v0 e0 : nat) : option mg :=
  match slot (m_rows G) v0 e0 with
  | None => None
  | Some (t0, _, r0) =>
      let '(node, edge) := if t0 <? v0 then (t0, r0) else (v0, e0) in
      match slot (m_rows G) node edge with
      | None => None
      | Some (target, del_wgt, skip) =>
          let back := m_n G - 1 in
          if target =? back then None
          else
            let m := edge_map (nth node (m_rows G) []) edge 0 (repeat None (m_n G)) in
            match contract_edges (length (nth target (m_rows G) [])) m skip node target 0 (m_rows G, m_deg G, m_ne G) with
            | None => None
            | Some (rows1, deg1, ne1) =>
                let cn := nth node (m_cont G) [] in
                let ct := nth target (m_cont G) [] in
                let cb := nth back (m_cont G) [] in
                let rows2 := move_last rows1 target [] in
                match remap (length (nth target rows2 [])) rows2 target target 0 with
                | None => None
                | Some rows3 =>
                    match internal_delete rows3 node edge with
                    | None => None
                    | Some rows4 =>
                        Some (mk_mg rows4 (deg_sub (move_last deg1 target 0%N) node del_wgt)
                                (move_last (m_part G) target 0) (move_last (m_cut G) target false)
                                (set_positions (set_positions (m_pos G) ct node) cb target)
                                (removelast (upd (upd (m_cont G) node (cn ++ ct)) target cb))
                                (m_last G - 1) (ne1 - 2) (m_pc G) (m_orig G))
                    end
                end
            end
      end
  end.

(* mutable_graph.h:684-702 the edges k, k+1, ... of first: kept edges, map, rows with re-linked reverses *)
Fixpoint split_first (cnt : nat) (inS : nat -> bool) (first k : nat) (edges : list half) (m : list (option (nat * nat)))
    (st : list (list half) * list N * N) : option (list half * list (option (nat * nat)) * (list (list half) * list N * N)) :=
  match cnt with
  | 0 => Some (edges, m, st)
  | S cnt' =>
      let '(rows, deg, ne) := st in
      match slot rows first k with
      | None => None
      | Some (t, w, r) =>
          if inS t then split_first cnt' inS first (S k) edges m (rows, deg_sub deg first w, (ne - 1)%N)
          else
            match set_rev rows t r (length edges) with
            | None => None
            | Some rows' =>
                split_first cnt' inS first (S k) (edges ++ [(t, w, r)])
                  (match nth t m None with None => upd m t (Some (r, length edges)) | Some _ => m end) (rows', deg, ne)
            end
      end
  end.

(* mutable_graph.h:708-756 the edges k, k+1, ... of n *)
Fixpoint merge_vertex (cnt : nat) (inS : nat -> bool) (first n k : nat) (m : list (option (nat * nat)))
    (st : list (list half) * list N * N) : option (list (option (nat * nat)) * (list (list half) * list N * N)) :=
  match cnt with
  | 0 => Some (m, st)
  | S cnt' =>
      let '(rows, deg, ne) := st in
      match slot rows n k with
      | None => None
      | Some (t, w, r) =>
          if inS t then merge_vertex cnt' inS first n (S k) m (rows, deg, (ne - 1)%N)
          else
            match nth t m None with
            | Some (rev, ed2) =>
                match add_wgt rows first ed2 w with
                | None => None
                | Some rows1 =>
                    match add_wgt rows1 t rev w with
                    | None => None
                    | Some rows2 =>
                        match internal_delete rows2 t r with
                        | None => None
                        | Some rows3 =>
                            merge_vertex cnt' inS first n (S k)
                              (if length (nth t rows2 []) - 1 =? rev then upd m t (Some (r, ed2)) else m)
                              (rows3, deg_add deg first w, (ne - 2)%N)
                        end
                    end
                end
            | None =>
                let fl := length (nth first rows []) in
                match set_rev rows t r fl with
                | None => None
                | Some rows1 =>
                    match set_tgt rows1 t r first with
                    | None => None
                    | Some rows2 =>
                        merge_vertex cnt' inS first n (S k) (upd m t (Some (r, fl)))
                          (push rows2 first (t, w, r), deg_add deg first w, ne)
                    end
                end
            end
      end
  end.

(* mutable_graph.h:704-757 the vertices of the set except first *)
Fixpoint merge_vertices (vs : list nat) (inS : nat -> bool) (first : nat) (m : list (option (nat * nat)))
    (st : list (list half) * list N * N) : option (list (list half) * list N * N) :=
  match vs with
  | [] => Some st
  | n :: vs' =>
      match merge_vertex (length (nth n (fst (fst st)) [])) inS first n 0 m st with
      | None => None
      | Some (m', st') => merge_vertices vs' inS first m' st'
      end
  end.

(* mutable_graph.h:764-793 removing the merged vertices, largest first *)
Fixpoint drop_vertices (vs : list nat) (first : nat) (G : mg) : option mg :=
  match vs with
  | [] => Some G
  | v :: vs' =>
      let back := m_n G - 1 in
      let cv := nth v (m_cont G) [] in
      let cont1 := upd (upd (m_cont G) first (nth first (m_cont G) [] ++ cv)) v [] in
      let pos1 := set_positions (m_pos G) cv first in
      if v <? back then
        let cb := nth back cont1 [] in
        let rows1 := upd (upd (m_rows G) v (nth back (m_rows G) [])) back [] in
        match remap (length (nth v rows1 [])) rows1 v v 0 with
        | None => None
        | Some rows2 =>
            drop_vertices vs' first
              (mk_mg (removelast rows2) (move_last (m_deg G) v 0%N) (move_last (m_part G) v 0) (move_last (m_cut G) v false)
                     (set_positions pos1 cb v) (removelast (upd cont1 v cb)) (m_last G - 1) (m_ne G) (m_pc G) (m_orig G))
        end
      else
        drop_vertices vs' first
          (mk_mg (removelast (m_rows G)) (removelast (m_deg G)) (removelast (m_part G)) (removelast (m_cut G))
                 pos1 (removelast cont1) (m_last G - 1) (m_ne G) (m_pc G) (m_orig G))
  end.

(* insertion into a list sorted in descending order (std::sort with >, mutable_graph.h:759-762) *)
Fixpoint insert_desc (x : nat) (l : list nat) : list nat :=
  match l with [] => [x] | y :: l' => if y <=? x then x :: l else y :: insert_desc x l' end.
(* std::sort, mutable_graph.h:759-762 *)
Definition sort_desc (l : list nat) : list nat := fold_right insert_desc [] l.

(* mutable_graph.h:660-794 contractVertexSet; vset: the set in the iteration order of the hash set.  The
   membership tests (lines 687, 712) use the whole set, also its members out of range *)
Definition m_contract_set (G : mg) (vset : list nat) : option mg :=
  let vec := filter (fun i => i <? m_n G) vset in
  match vec with
  | [] | [_] => Some G
  | x :: xs =>
      let first := fold_left Nat.min xs x in
      let rest := filter (fun i => negb (i =? first)) vec in
      let inS := fun t => existsb (Nat.eqb t) vset in
      match split_first (length (nth first (m_rows G) [])) inS first 0 [] (repeat None (m_n G)) (m_rows G, m_deg G, m_ne G) with
      | None => None
      | Some (edges, m, (rows1, deg1, ne1)) =>
          match merge_vertices rest inS first m (upd rows1 first edges, deg1, ne1) with
          | None => None
          | Some (rows2, deg2, ne2) => drop_vertices (sort_desc rest) first (with_rows G rows2 deg2 ne2)
          end
      end
  end.
