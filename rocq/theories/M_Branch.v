(* M_Branch.v - model of branching: problem_management.h (multiBranch, singleBranch,
   degreeThreeContraction) and edge_selection.h (findHeavyVertex, findEdgeMultiBranch). *)
From Verif Require Export M_Kernel.

(* mutable_graph.h:566-658 contractEdge with the out-of-range access of line 645 resolved: when the larger
   end is the last vertex, edges_of(target) sees the popped, moved-from (empty) vector and the loop does
   nothing.  Where m_contract_edge is defined both agree.  contained_in_this[target] is cleared before
   it is read as the last one (line 628). *)
Definition contract_edge_std (G : mg) (v0 e0 : nat) : option mg :=
  match slot (m_rows G) v0 e0 with
  | None => None
  | Some (t0, _, r0) =>
      let '(node, edge) := if t0 <? v0 then (t0, r0) else (v0, e0) in
      match slot (m_rows G) node edge with
      | None => None
      | Some (target, del_wgt, skip) =>
          let back := m_n G - 1 in
          let m := edge_map (nth node (m_rows G) []) edge 0 (repeat None (m_n G)) in
          match contract_edges (length (nth target (m_rows G) [])) m skip node target 0 (m_rows G, m_deg G, m_ne G) with
          | None => None
          | Some (rows1, deg1, ne1) =>
              let cn := nth node (m_cont G) [] in
              let ct := nth target (m_cont G) [] in
              let cb := if target =? back then [] else nth back (m_cont G) [] in
              let rows2 := move_last rows1 target [] in
              match remap (length (nth target rows2 [])) rows2 target target 0 with
              | None => None
              | Some rows3 =>
                  match internal_delete rows3 node edge with
                  | None => None
                  | Some rows4 =>
                      Some (mk_mg rows4 (deg_sub (move_last deg1 target 0%N) node del_wgt)
                              (move_last (m_part G) target 0) (move_last (m_cut G) target false)
                              (set_positions (set_positions (m_pos G) ct node) cb target)
                              (removelast (upd (upd (m_cont G) node (cn ++ ct)) target cb))
                              (m_last G - 1) (ne1 - 2) (m_pc G) (m_orig G))
                  end
              end
          end
      end
  end.

(* edge_selection.h:78-87 the edges k, k+1, ... of terminal t *)
Fixpoint heavy_row (row : list half) (G : mg) (t k : nat) (st : N * (nat * nat)) : N * (nat * nat) :=
  match row with
  | [] => st
  | (tgt, _, _) :: row' =>
      let d := nth tgt (m_deg G) 0%N in
      heavy_row row' G t (S k) (if (fst st <? d)%N then (d, (t, k)) else st)
  end.

(* edge_selection.h:66-90 findHeavyVertex *)
Definition find_heavy (G : mg) (ts : list nat) : nat * nat :=
  snd (fold_left (fun st t => heavy_row (nth t (m_rows G) []) G t 0 st) ts (0%N, (0, 0))).

(* edge_selection.h:213-221 the first edge to vtx *)
Fixpoint first_edge (row : list half) (vtx : nat) : option N :=
  match row with [] => None | (tgt, w, _) :: row' => if tgt =? vtx then Some w else first_edge row' vtx end.

(* edge_selection.h:208-223 neighbouring_terminals *)
Definition nbr_terms (G : mg) (ts : list nat) (vtx : nat) : list (option nat * N) :=
  flat_map (fun p => match first_edge (nth p (m_rows G) []) vtx with Some w => [(Some p, w)] | None => [] end) ts.

(* edge_selection.h:204-259 findEdgeMultiBranch for the vertex vtx, with inexact = false: the terminals to
   branch on, None for UNDEFINED_NODE.  std::sort is any permutation srt; heavy is the maximum and
   sumToTerminals the sum of the collected weights *)
Definition branch_terms (srt : list (option nat * N) -> list (option nat * N)) (G : mg) (ts : list nat) (vtx : nat) : list (option nat) :=
  let nt := nbr_terms G ts vtx in
  let heavy := fold_left (fun m x => N.max m (snd x)) nt 0%N in
  let nonterm := (nth vtx (m_deg G) 0 - fold_left (fun s x => s + snd x) nt 0)%N in
  let nt' := if (length nt <? length ts) && (heavy <? nonterm)%N then nt ++ [(None, nonterm)] else nt in
  map fst (filter (fun x => ((heavy <? nonterm + snd x) || (heavy =? snd x))%N) (srt nt')).

(* problem_management.h:183-199 delete the edges of v from number e on whose target satisfies P; deleteEdge
   keeps the positions, so the outer loop (178-200) runs once.  Also 105-111 with P: all but one vertex *)
Fixpoint del_edges_at (fuel : nat) (P : nat -> bool) (v e : nat) (st : mg * N) : option (mg * N) :=
  match slot (m_rows (fst st)) v e with
  | None => Some st
  | Some (tgt, w, _) =>
      match fuel with
      | 0 => None
      | S fuel' =>
          if P tgt then
            match m_delete_edge (fst st) v e with Some G' => del_edges_at fuel' P v e (G', (snd st + w)%N) | None => None end
          else del_edges_at fuel' P v (S e) st
      end
  end.

(* problem_management.h:202-208 the first edge of v to c *)
Fixpoint edge_to (row : list half) (c k : nat) : option nat :=
  match row with [] => None | (tgt, _, _) :: row' => if tgt =? c then Some k else edge_to row' c (S k) end.

(* deleteTermEdges with its two calls of setTerminals, graph_contraction.h:70-110; w0: deleted so far *)
Definition finish_terms (maps : list (list nat)) (origs : list nat) (G : mg) (w0 : N) : option (mg * list (nat * nat) * N) :=
  match set_terminals G maps origs 0 with
  | None => None
  | Some ts1 =>
      match del_term_edges G (map fst ts1) with
      | None => None
      | Some (G2, w) =>
          match set_terminals G2 maps origs 0 with
          | None => None
          | Some ts2 => Some (G2, ts2, (w0 + w)%N)
          end
      end
  end.

(* problem_management.h:152-210 one child of multiBranch: the new graph, terminals and the weight added to
   deleted_weight.  ctr = None is UNDEFINED_NODE *)
Definition branch_child (maps : list (list nat)) (origs : list nat) (G : mg) (ts : list nat) (vtx : nat) (ctr : option nat)
  : option (mg * list (nat * nat) * N) :=
  match nth vtx (m_cont G) [] with
  | [] => None
  | cv :: _ =>
      match nth_error (m_pos G) cv with
      | None => None
      | Some v =>
          match del_edges_at (length (nth v (m_rows G) [])) (fun t => isterm ts t && match ctr with Some c => negb (t =? c) | None => true end) v 0 (G, 0%N) with
          | None => None
          | Some (G1, w) =>
              match (match ctr with
                     | Some c => match edge_to (nth v (m_rows G1) []) c 0 with Some e => contract_edge_std G1 v e | None => Some G1 end
                     | None => Some G1
                     end) with
              | None => None
              | Some G2 => finish_terms maps origs G2 w
              end
          end
      end
  end.

(* all results, or None *)
Fixpoint collect {A} (l : list (option A)) : option (list A) :=
  match l with
  | [] => Some []
  | x :: l' => match x, collect l' with Some y, Some ys => Some (y :: ys) | _, _ => None end
  end.

(* problem_management.h:144-214 multiBranch for the branching vertex vtx: the children *)
Definition multi_branch_at srt (maps : list (list nat)) (origs : list nat) (G : mg) (ts : list nat) (vtx : nat) : option (list (mg * list (nat * nat) * N)) :=
  collect (map (branch_child maps origs G ts vtx) (branch_terms srt G ts vtx)).

(* problem_management.h:144-214 and edge_selection.h:204-208 *)
Definition multi_branch srt (maps : list (list nat)) (origs : list nat) (G : mg) (ts : list nat) : option (list (mg * list (nat * nat) * N)) :=
  let '(t, e) := find_heavy G ts in
  match slot (m_rows G) t e with None => None | Some (vtx, _, _) => multi_branch_at srt maps origs G ts vtx end.

(* problem_management.h:318-340 the branch of singleBranch where edge (b, e) is cut *)
Definition single_cut (G : mg) (b e : nat) : option (mg * N) :=
  match slot (m_rows G) b e with
  | None => None
  | Some (_, w, _) => match m_delete_edge G b e with Some G' => Some (G', w) | None => None end
  end.

(* problem_management.h:342-351 the branch of singleBranch where the edge is kept, without the shortcut *)
Definition single_keep (maps : list (list nat)) (origs : list nat) (G : mg) (b e : nat) : option (mg * list (nat * nat) * N) :=
  match contract_edge_std G b e with None => None | Some G1 => finish_terms maps origs G1 0 end.

(* problem_management.h:86-118 degreeThreeContraction: None if it returns false *)
Definition degree_three (G : mg) (b e : nat) : option (mg * N) :=
  match slot (m_rows G) b e with
  | None => None
  | Some (term, c, _) =>
      if negb (length (nth b (m_rows G) []) =? 3) then None
      else if negb (max_weight (nth b (m_rows G) []) =? c)%N then None
      else
        match del_edges_at (length (nth b (m_rows G) [])) (fun t => negb (t =? term)) b 0 (G, 0%N) with
        | None => None
        | Some (G1, w) => match contract_edge_std G1 b 0 with Some G2 => Some (G2, w) | None => None end
        end
  end.

(* problem_management.h:342-351 the branch where the edge is kept, with the shortcut *)
Definition single_keep3 (maps : list (list nat)) (origs : list nat) (G : mg) (b e : nat) : option (mg * list (nat * nat) * N) :=
  match degree_three G b e with
  | Some (G2, w) => finish_terms maps origs G2 w
  | None => single_keep maps origs G b e
  end.
