(* M_HeavyEdges.v - model of lib/algorithms/global_mincut/cactus/heavy_edges.h and of contractEdgeSparseTarget
   (lib/data_structure/mutable_graph.h:445-472, 516-564).  ord: the iteration order of a hash set or map with these keys.
   U: UNDEFINED_NODE, a number larger than every number of vertices. *)
From Verif Require Export M_Merge.

(* mutable_graph.h:450-462 the first edge of row with target t, from number k on *)
Fixpoint first_to (t k : nat) (row : list half) : option (nat * nat) :=
  match row with [] => None | (x, _, r) :: row' => if x =? t then Some (k, r) else first_to t (S k) row' end.

(* mutable_graph.h:445-472 mergeEdgeSparse *)
Definition merge_sparse (node target ed : nat) (st : list (list half) * list N * N) : option (list (list half) * list N * N) :=
  let '(rows, deg, ne) := st in
  match slot rows target ed with
  | None => None
  | Some (t, w, r) =>
      match first_to t 0 (nth node rows []) with
      | Some (e, rev) =>
          match add_wgt rows node e w with
          | None => None
          | Some rows1 =>
              match add_wgt rows1 t rev w with
              | None => None
              | Some rows2 => option_map (fun rows3 => (rows3, deg_add deg node w, (ne - 2)%N)) (internal_delete rows2 t r)
              end
          end
      | None =>
          match set_rev rows t r (length (nth node rows [])) with
          | None => None
          | Some rows1 => option_map (fun rows2 => (push rows2 node (t, w, r), deg_add deg node w, ne)) (set_tgt rows1 t r node)
          end
      end
  end.

(* mutable_graph.h:516-564 contractEdgeSparseTarget; line 559 as line 645 in contract_edge_std *)
Definition contract_sparse (G : mg) (node edge : nat) : option mg :=
  match slot (m_rows G) node edge with
  | None => None
  | Some (target, del_wgt, skip) =>
      if node =? target + 1 then contract_edge_std G node edge
      else
        let back := m_n G - 1 in
        match fold_opt (fun st ed => if ed =? skip then Some st else merge_sparse node target ed st)
                (seq 0 (length (nth target (m_rows G) []))) (m_rows G, m_deg G, m_ne G) with
        | None => None
        | Some (rows1, deg1, ne1) =>
            let cn := nth node (m_cont G) [] in
            let ct := nth target (m_cont G) [] in
            let cb := if target =? back then [] else nth back (m_cont G) [] in
            match internal_delete rows1 node edge with
            | None => None
            | Some rows2 =>
                let rows3 := move_last rows2 target [] in
                match remap (length (nth target rows3 [])) rows3 target target 0 with
                | None => None
                | Some rows4 =>
                    Some (mk_mg rows4 (move_last (deg_sub deg1 node del_wgt) target 0%N)
                            (move_last (m_part G) target 0) (move_last (m_cut G) target false)
                            (set_positions (set_positions (m_pos G) ct node) cb target)
                            (removelast (upd (upd (m_cont G) node (cn ++ ct)) target cb))
                            (m_last G - 1) (ne1 - 2) (m_pc G) (m_orig G))
                end
            end
        end
  end.

(* mutable_graph.h:283-285 isEmpty *)
Definition m_empty (G : mg) (v : nat) : bool := match nth v (m_cont G) [] with [] => true | _ => false end.

(* heavy_edges.h:51-55 *)
Fixpoint he_add (lo hi : nat) (m : list (nat * list nat)) : list (nat * list nat) :=
  match m with [] => [(lo, [hi])] | (a, l) :: m' => if a =? lo then (a, l ++ [hi]) :: m' else (a, l) :: he_add lo hi m' end.

(* heavy_edges.h:38-65 an edge of vertex n *)
Definition he_edge (mincut : N) (G : mg) (n : nat) (b : list (nat * list nat) * list nat) (h : half) : list (nat * list nat) * list nat :=
  let '(t, w, _) := h in
  if m_empty G t then b
  else
    let x := nth 0 (nth n (m_cont G) []) 0 in
    let y := nth 0 (nth t (m_cont G) []) 0 in
    (if (mincut <? w)%N then he_add (Nat.min x y) (Nat.max x y) (fst b) else fst b,
     if (w =? mincut)%N && (length (nth n (m_rows G) []) =? 1) then snd b ++ [x] else snd b).

(* heavy_edges.h:34-66 the maps contract and markForCactus *)
Definition he_scan (mincut : N) (G : mg) : list (nat * list nat) * list nat :=
  fold_left (fun b n => if m_empty G n then b else fold_left (he_edge mincut G n) (nth n (m_rows G) []) b) (seq 0 (m_n G)) ([], []).

(* heavy_edges.h:68-77 one entry of contract *)
Definition he_contract (ord : list nat -> list nat) (G : mg) (c : nat * list nat) : option mg :=
  match fold_opt (fun l x => option_map (fun p => l ++ [p]) (nth_error (m_pos G) x)) (fst c :: snd c) [] with
  | None => None
  | Some l => let vs := nodup Nat.eq_dec l in if 1 <? length vs then m_contract_set G (ord vs) else Some G
  end.

(* heavy_edges.h:79-92 one marked vertex; the removed leaf: its neighbour and what it holds *)
Definition he_leaf (b : mg * list (nat * list nat)) (x : nat) : option (mg * list (nat * list nat)) :=
  let G := fst b in
  if 2 <? m_n G then
    match nth_error (m_pos G) x with
    | None => None
    | Some n =>
        match slot (m_rows G) n 0 with
        | None => None
        | Some (t, _, _) =>
            match nth t (m_cont G) [] with
            | [] => Some b
            | y :: _ => option_map (fun G' => (G', snd b ++ [(y, nth n (m_cont G) [])])) (m_delete_vertex G n)
            end
        end
    end
  else Some b.

(* heavy_edges.h:29-94 removeHeavyEdges *)
Definition remove_heavy (mincut : N) (ord : list nat -> list nat) (G : mg) : option (mg * list (nat * list nat)) :=
  let '(cm, mark) := he_scan mincut G in
  match fold_opt (he_contract ord) (map (fun k => (k, match find (fun e => fst e =? k) cm with Some e => snd e | None => [] end)) (ord (map fst cm))) G with
  | None => None
  | Some G1 => fold_opt he_leaf mark (G1, [])
  end.

(* heavy_edges.h:103-143 vertex n *)
Definition cy_vertex (U : nat) (mincut : N) (G : mg) (cy : list (nat * nat * list nat)) (n : nat) : option (mg * list (nat * nat * list nat)) :=
  match nth n (m_rows G) [] with
  | [(a0, w0, r0); (a1, w1, r1)] =>
      if (nth n (m_deg G) 0 =? mincut)%N then
        match nth a0 (m_cont G) [], nth a1 (m_cont G) [] with
        | _ :: _, _ :: _ =>
            let n0 := if (w0 <? w1)%N then a1 else a0 in
            let n1 := if (w1 <? w0)%N then n0 else a1 in
            let p0 := nth 0 (nth n0 (m_cont G) []) 0 in
            let p1 := nth 0 (nth n1 (m_cont G) []) 0 in
            let cont := nth n (m_cont G) [] in
            match set_cont G n [] with
            | None => None
            | Some G1 =>
                match set_all_pos cont U G1 with
                | None => None
                | Some G2 => option_map (fun G3 => (G3, cy ++ [(p0, p1, cont)])) (contract_sparse G2 n0 (if (w0 <? w1)%N then r1 else r0))
                end
            end
        | _, _ => Some (G, cy)
        end
      else if (w0 =? w1)%N then Some (G, cy)
      else option_map (fun G' => (G', cy)) (if (w0 <? w1)%N then contract_sparse G a1 r1 else contract_sparse G a0 r0)
  | _ => Some (G, cy)
  end.

(* heavy_edges.h:102-144 the loop, n starting where it is; fuel: the number of vertices at the start *)
Fixpoint cy_loop (fuel U : nat) (mincut : N) (n : nat) (b : mg * list (nat * nat * list nat)) : option (mg * list (nat * nat * list nat)) :=
  if n <? m_n (fst b) then
    match fuel with
    | 0 => None
    | S fuel => match cy_vertex U mincut (fst b) (snd b) n with None => None | Some b' => cy_loop fuel U mincut (S n) b' end
    end
  else Some b.

(* heavy_edges.h:96-147 contractCycleEdges *)
Definition contract_cycles (U : nat) (mincut : N) (G : mg) : option (mg * list (nat * nat * list nat)) :=
  cy_loop (m_n G) U mincut 0 (G, []).

(* heavy_edges.h:189-192, 205-208 a new vertex v that holds xs *)
Definition he_fill (v : nat) (xs : list nat) (G : mg) : option mg :=
  match set_cont G v xs with None => None | Some G1 => set_all_pos xs v G1 end.

(* heavy_edges.h:153-193 one entry.  Lines 159-164 set the vertex twice *)
Definition re_cycle (mincut : N) (G : mg) (c : nat * nat * list nat) : option mg :=
  match nth_error (m_pos G) (fst (fst c)), nth_error (m_pos G) (snd (fst c)) with
  | Some n0, Some n1 =>
      let v := m_last G in
      let G1 := new_empty_node G in
      if n0 =? n1 then
        match new_edge_order G1 n0 v mincut with None => None | Some G2 => he_fill v (snd c) G2 end
      else
        match first_to n1 0 (nth n0 (m_rows G1) []) with
        | None => None
        | Some (e, _) =>
            match new_edge_order G1 n0 v (mincut / 2) with
            | None => None
            | Some G2 =>
                match new_edge_order G2 n1 v (mincut / 2) with
                | None => None
                | Some G3 =>
                    match slot (m_rows G3) n0 e with
                    | None => None
                    | Some (_, w, _) =>
                        match (if (w =? mincut / 2)%N then m_delete_edge G3 n0 e else m_set_weight G3 n0 e (w - mincut / 2)%N) with
                        | None => None
                        | Some G4 => he_fill v (snd c) G4
                        end
                    end
                end
            end
        end
  | _, _ => None
  end.
(* heavy_edges.h:149-194 reInsertCycles *)
Definition re_cycles (mincut : N) (cy : list (nat * nat * list nat)) (G : mg) : option mg := fold_opt (re_cycle mincut) (rev cy) G.

(* heavy_edges.h:199-209 one entry *)
Definition re_leaf (mincut : N) (G : mg) (c : nat * list nat) : option mg :=
  match nth_error (m_pos G) (fst c) with
  | None => None
  | Some p =>
      let v := m_last G in
      match new_edge_order (new_empty_node G) p v mincut with None => None | Some G2 => he_fill v (snd c) G2 end
  end.
(* heavy_edges.h:196-210 reInsertVertices *)
Definition re_leaves (mincut : N) (ce : list (nat * list nat)) (G : mg) : option mg := fold_opt (re_leaf mincut) (rev ce) G.
