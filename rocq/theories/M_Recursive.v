(* M_Recursive.v - model of recursive_cactus::recursiveCactus, internalRecursiveCactus, mergeCactusWithComponent and the choice of the
   flow edge (lib/algorithms/global_mincut/cactus/recursive_cactus.h:99-321, 509-611).  Parameters: kern, the reductions of lines
   120-131; sel, the flow edge chosen before flow problem number pid; flow, the value and the flow of problem number pid; ord, the
   iteration order of hash sets.  Out-of-range accesses, exit(1) and exhausted fuel are None. *)
From Verif Require Export M_HeavyEdges M_Rebuild.

(* recursive_cactus.h:544-571 the selection of maximumWeightedFlowEdge without the fallback: the vertex of largest degree, and its
   neighbour of largest degree, none of them empty *)
Definition heavy_vertex (G : mg) : option nat :=
  snd (fold_left (fun b n => if (fst b <? nth n (m_deg G) 0)%N && negb (m_empty G n) then (nth n (m_deg G) 0%N, Some n) else b)
        (seq 0 (m_n G)) (0%N, None)).
(* recursive_cactus.h:556-571 *)
Definition heavy_neighbour (G : mg) (s : nat) : option (nat * nat) :=
  snd (fold_left (fun b e => match slot (m_rows G) s e with
         | Some (t, _, _) => if (fst b <? nth t (m_deg G) 0)%N && negb (m_empty G t) then (nth t (m_deg G) 0%N, Some (e, t)) else b
         | None => b end) (seq 0 (length (nth s (m_rows G) []))) (0%N, None)).

(* recursive_cactus.h:597-600 the first edge to a vertex that is not empty *)
Fixpoint full_edge (G : mg) (e : nat) (row : list half) : option (nat * nat) :=
  match row with [] => None | (t, _, _) :: row' => if m_empty G t then full_edge G (S e) row' else Some (e, t) end.
(* recursive_cactus.h:581-611 findFlowEdge; s: the random vertex.  A search that comes back to its start never ends: None *)
Fixpoint find_flow_edge (fuel : nat) (G : mg) (s : nat) : option (nat * nat * nat) :=
  match fuel with
  | 0 => None
  | S fuel =>
      match (if m_empty G s then None else full_edge G 0 (nth s (m_rows G) [])) with
      | Some (e, t) => Some (s, e, t)
      | None => find_flow_edge fuel G (if m_n G <=? s + 1 then 0 else s + 1)
      end
  end.
(* recursive_cactus.h:544-579 maximumWeightedFlowEdge; r: the random vertex of the fallback *)
Definition max_weighted_edge (G : mg) (r : nat) : option (nat * nat * nat) :=
  match heavy_vertex G with
  | None => None
  | Some s => match heavy_neighbour G s with Some (e, t) => Some (s, e, t) | None => find_flow_edge (m_n G) G r end
  end.

(* recursive_cactus.h:158-163 solve_max_flow_min_cut(G, {s, tgt}, 0, false, false, problem_id): push_relabel.h:340-457 without the
   source set; the value and the flow that is left in the graph *)
Definition pr_flow (fuel : nat) (pick : nat -> list nat -> nat) (gl : nat -> bool) (R : list (list half)) (s t : nat) : option (N * list (list Z)) :=
  if negb (forallb (fun t => t <? length R) [s; t]) then None
  else
    match global_relabel true R [s; t] s (pr_init R [s; t] s) with
    | None => None
    | Some s0 => option_map (fun x => (Z.to_N (total_flow [s; t] s x), p_fl x)) (pr_loop fuel pick gl 0 R [s; t] s s0)
    end.

Section Recursive.
Context (mincut : N) (U : nat) (kern : mg -> option mg) (sel : nat -> mg -> option (nat * nat * nat))
        (flow : nat -> mg -> nat -> nat -> option (N * list (list Z))) (ord : list nat -> list nat) (bfs : nat).

(* recursive_cactus.h:262-268, 271-277 the vertices of G in a small graph: the new number of each (contained) *)
Fixpoint cp_numbers (v : list nat) (c bs k : nat) : list nat :=
  match v with [] => [] | x :: v' => if x =? c then k :: cp_numbers v' c bs (S k) else bs :: cp_numbers v' c bs k end.

(* recursive_cactus.h:246-248, 257-260, 267-268, 281-284 the first vertex of the first vertex of G inside (outside) the component *)
Definition cp_base (G : mg) (v : list nat) (f : nat -> bool) : option nat :=
  match find (fun n => f (nth n v 0) && negb (m_empty G n)) (seq 0 (m_n G)) with
  | None => None
  | Some n => nth_error (nth n (m_cont G) []) 0
  end.

(* recursive_cactus.h:249-252, 261-264 what vertex n of G holds is moved to its new number *)
Definition cp_place (G : mg) (num : list nat) (M : mg) (n : nat) : option mg :=
  fold_opt (fun M x => match add_cont M (nth n num 0) x with Some M1 => set_pos M1 x (nth n num 0) | None => None end) (nth n (m_cont G) []) M.

(* recursive_cactus.h:273-281 the edges of vertex n inside the component *)
Definition cp_inner (num : list nat) (bs n : nat) (M : mg) (h : half) : option mg :=
  let t := nth (fst (fst h)) num 0 in
  if t =? bs then Some M else if nth n num 0 <? t then m_new_edge M (nth n num 0) t (snd (fst h)) else Some M.
(* recursive_cactus.h:271, 275-276 to_contracted *)
Definition cp_outer (num : list nat) (bs : nat) (row : list half) : N :=
  fold_left (fun d h => if nth (fst (fst h)) num 0 =? bs then (d + snd (fst h))%N else d) row 0%N.
(* recursive_cactus.h:269-287 the edges of vertex n *)
Definition cp_edges (G : mg) (num : list nat) (bs : nat) (M : mg) (n : nat) : option mg :=
  if nth n num 0 =? bs then Some M
  else
    let row := nth n (m_rows G) [] in
    match fold_opt (cp_inner num bs n) row M with
    | None => None
    | Some M1 => if (0 <? cp_outer num bs row)%N then m_new_edge M1 (nth n num 0) bs (cp_outer num bs row) else Some M1
    end.

(* recursive_cactus.h:240-289 a component of at most half of the vertices: a new graph *)
Definition cp_small (G : mg) (v : list nat) (c bs : nat) : option mg :=
  let num := cp_numbers v c bs 0 in
  match fold_opt (fun M p => set_cont M p []) (seq 0 (S bs)) (new_empty_node (set_orig (start_construction (S bs)) (m_orig G))) with
  | None => None
  | Some M0 =>
      match fold_opt (cp_place G num) (seq 0 (m_n G)) (Nat.iter (length (filter (Nat.eqb c) v)) new_empty_node M0) with
      | None => None
      | Some M1 => option_map m_finish (fold_opt (cp_edges G num bs) (seq 0 (m_n G)) M1)
      end
  end.

(* recursive_cactus.h:290-311 a larger component: everything else is contracted in G itself *)
Definition cp_big (G : mg) (v : list nat) (c : nat) : option mg :=
  m_contract_set G (ord (filter (fun i => negb (nth i v 0 =? c)) (seq 0 (length v)))).

(* recursive_cactus.h:227-321 mergeCactusWithComponent; rec: recursiveCactus(., depth + 1); C: STCactus *)
Definition merge_component (rec : nat -> mg -> option (mg * nat)) (G : mg) (v bs : list nat) (st : mg * nat) (c : nat) : option (mg * nat) :=
  match (if 2 * nth c bs 0 <=? m_n G then cp_small G v c (nth c bs 0) else cp_big G v c) with
  | None => None
  | Some H =>
      match rec (snd st) H with
      | None => None
      | Some (N, pid) =>
          match cp_base G v (Nat.eqb c), cp_base G v (fun x => negb (x =? c)) with
          | Some x, Some y =>
              match nth_error (m_pos (fst st)) x, nth_error (m_pos N) y with
              | Some v1, Some v2 => option_map (fun M => (M, pid)) (merge_graphs bfs (fst st) v1 N v2 mincut)
              | _, _ => None
              end
          | _, _ => None
          end
      end
  end.

(* recursive_cactus.h:171-198 two blocks, one of them a single vertex: it is taken out and put back as a leaf *)
Definition leaf_branch (rec : nat -> mg -> option (mg * nat)) (G : mg) (s e t pid : nat) : option (mg * nat) :=
  let ctr := if (nth s (m_deg G) 0 =? mincut)%N then s else t in
  let other := if ctr =? s then t else s in
  let ec := nth ctr (m_cont G) [] in
  let eo := nth other (m_cont G) [] in
  match contract_edge_std G s e with
  | None => None
  | Some G1 =>
      match ec, eo with
      | x :: _, y :: _ =>
          match nth_error (m_pos G1) x with
          | None => None
          | Some cv =>
              match he_fill cv eo G1 with
              | None => None
              | Some G2 =>
                  match rec pid G2 with
                  | None => None
                  | Some (R, pid') =>
                      match nth_error (m_pos R) y with
                      | None => None
                      | Some p =>
                          let q := m_last R in
                          match m_new_edge (new_empty_node R) p q mincut with
                          | None => None
                          | Some R1 => option_map (fun R2 => (R2, pid')) (he_fill q ec R1)
                          end
                      end
                  end
              end
          end
      | _, _ => None
      end
  end.

(* recursive_cactus.h:199-222 the cactus of the minimum s-t cuts, merged with the cactus of each component, small ones first *)
Definition block_branch (rec : nat -> mg -> option (mg * nat)) (G : mg) (o : scc) (s pid : nat) : option (mg * nat) :=
  match find_st_cactus (comp_vector o) G s (s_cc o) mincut with
  | None => None
  | Some C =>
      fold_opt (merge_component rec G (comp_vector o) (s_bs o))
        (filter (fun c => 2 * nth c (s_bs o) 0 <=? m_n G) (seq 0 (s_cc o)) ++ filter (fun c => m_n G <? 2 * nth c (s_bs o) 0) (seq 0 (s_cc o)))
        (C, pid)
  end.

(* recursive_cactus.h:134-225 internalRecursiveCactus after the reductions *)
Definition inner_cactus (rec : nat -> mg -> option (mg * nat)) (G : mg) (pid : nat) : option (mg * nat) :=
  if (m_n G =? 1) || (m_ne G =? 0)%N then Some (G, pid)
  else
    match sel pid G with
    | None => None
    | Some (s, e, t) =>
        match flow (S pid) G s t with
        | None => None
        | Some (x, fl) =>
            if (mincut <? x)%N then
              match contract_edge_std G s e with None => None | Some G1 => rec (S pid) G1 end
            else if m_n G =? 2 then Some (G, S pid)
            else
              match strong_components scc_new (res_rows (Some (S pid)) (stored (S pid) (m_rows G) fl)) with
              | None => None
              | Some o =>
                  if (s_cc o =? 2) && ((nth s (m_deg G) 0 =? mincut)%N || (nth t (m_deg G) 0 =? mincut)%N)
                  then leaf_branch rec G s e t (S pid)
                  else block_branch rec G o s (S pid)
              end
        end
    end.

(* recursive_cactus.h:100-109, 118-132 recursiveCactus at a depth; pid: problem_id *)
Fixpoint recursive_cactus (fuel depth pid : nat) (G : mg) : option (mg * nat) :=
  match fuel with
  | 0 => None
  | S fuel =>
      match remove_heavy mincut ord G with
      | None => None
      | Some (G1, ce) =>
          match contract_cycles U mincut G1 with
          | None => None
          | Some (G2, cy) =>
              match (if depth mod 10 =? 0 then kern G2 else Some G2) with
              | None => None
              | Some G3 =>
                  match inner_cactus (recursive_cactus fuel (S depth)) G3 pid with
                  | None => None
                  | Some (C, pid') =>
                      match re_cycles mincut cy C with
                      | None => None
                      | Some C1 => option_map (fun C2 => (C2, pid')) (re_leaves mincut ce C1)
                      end
                  end
              end
          end
      end
  end.
End Recursive.
