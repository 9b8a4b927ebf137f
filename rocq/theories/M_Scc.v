(* M_Scc.v - model of lib/algorithms/misc/strongly_connected_components.h: strong_components with the explicit
   depth first search, and of largest_scc with graph_extractor.h extract_block.  The search sees a graph as a list
   of rows, one entry per edge: Some target, or None for an edge that the search skips (full flow).  Edge ids
   of the static graph are taken relative to the first edge of their vertex.  Counters are unbounded; dfs
   numbers and component numbers of -1 are None. *)
From Coq Require Export ZArith.
From Verif Require Export M_Contract.

(* strongly_connected_components.h:221-232 the members; stacks with the top first *)
Record scc := mk_scc {
  s_num : list (option nat); s_comp : list (option nat); s_cnt : nat; s_cc : nat; s_bs : list nat;
  s_unf : list nat; s_rts : list nat; s_stk : list (nat * nat) }.

(* strongly_connected_components.h:27-31 a new object *)
Definition scc_new : scc := mk_scc [] [] 0 0 [] [] [] [].

(* strongly_connected_components.h:126-127, 177-178 while (m_dfsnum[m_roots.top()] > m_dfsnum[target]) m_roots.pop() *)
Fixpoint scc_merge (num : list (option nat)) (x : nat) (rts : list nat) : option (list nat) :=
  match rts with
  | [] => None
  | r :: rs => match nth_error num r with
               | None => None
               | Some (Some y) => if x <? y then scc_merge num x rs else Some rts
               | Some None => Some rts
               end
  end.

(* strongly_connected_components.h:83-89, 116-122, 165-173 a vertex is seen for the first time; stk: the new stack *)
Definition scc_discover (s : scc) (t : nat) (stk : list (nat * nat)) : scc :=
  mk_scc (upd (s_num s) t (Some (s_cnt s))) (s_comp s) (S (s_cnt s)) (s_cc s) (s_bs s) (t :: s_unf s) (t :: s_rts s) stk.

(* strongly_connected_components.h:96-129, 160-180 the for loop over the edges of c from edge e on *)
Fixpoint scc_scan (c e : nat) (row : list (option nat)) (s : scc) : option scc :=
  match row with
  | [] => Some s
  | None :: row' => scc_scan c (S e) row' s
  | Some t :: row' =>
      match nth_error (s_num s) t, nth_error (s_comp s) t with
      | Some None, _ => Some (scc_discover s t ((t, 0) :: (c, e) :: s_stk s))
      | Some (Some x), Some (Some _) => scc_scan c (S e) row' s
      | Some (Some x), Some None =>
          match scc_merge (s_num s) x (s_rts s) with
          | None => None
          | Some rs => scc_scan c (S e) row' (mk_scc (s_num s) (s_comp s) (s_cnt s) (s_cc s) (s_bs s) (s_unf s) rs (s_stk s))
          end
      | _, _ => None
      end
  end.

(* strongly_connected_components.h:135-140, 185-189 the do loop *)
Fixpoint scc_pop (c cc : nat) (unf : list nat) (comp : list (option nat)) (bs : list nat) : option (list nat * list (option nat) * list nat) :=
  match unf with
  | [] => None
  | w :: unf' =>
      if (w <? length comp) && (cc <? length bs) then
        let comp' := upd comp w (Some cc) in
        let bs' := upd bs cc (nth cc bs 0 + 1) in
        if w =? c then Some (unf', comp', bs') else scc_pop c cc unf' comp' bs'
      else None
  end.

(* strongly_connected_components.h:131-143, 182-192 after the for loop; the static overload keeps no block
   sizes *)
Definition scc_close (c : nat) (s : scc) : option scc :=
  match s_rts s with
  | [] => None
  | r :: rs =>
      if c =? r then
        match scc_pop c (s_cc s) (s_unf s) (s_comp s) (s_bs s ++ [0]) with
        | None => None
        | Some (unf, comp, bs) => Some (mk_scc (s_num s) comp (s_cnt s) (S (s_cc s)) bs unf rs (s_stk s))
        end
      else Some s
  end.

(* strongly_connected_components.h:91-144, 155-193 the while loop *)
Fixpoint scc_loop (fuel : nat) (rows : list (list (option nat))) (s : scc) : option scc :=
  match s_stk s with
  | [] => Some s
  | (c, e) :: stk =>
      match fuel with
      | 0 => None
      | S f =>
          match nth_error rows c with
          | None => None
          | Some row =>
              match scc_scan c e (skipn e row) (mk_scc (s_num s) (s_comp s) (s_cnt s) (s_cc s) (s_bs s) (s_unf s) (s_rts s) stk) with
              | None => None
              | Some s' => match scc_close c s' with Some s'' => scc_loop f rows s'' | None => None end
              end
          end
      end
  end.

(* strongly_connected_components.h:82-145, 147-194 explicit_scc_dfs *)
Definition scc_dfs (rows : list (list (option nat))) (s : scc) (v : nat) : option scc :=
  scc_loop (2 * length rows + 1) rows (scc_discover s v ((v, 0) :: s_stk s)).

(* strongly_connected_components.h:45-49, 66-70 the loop over all nodes *)
Fixpoint scc_nodes (rows : list (list (option nat))) (vs : list nat) (s : scc) : option scc :=
  match vs with
  | [] => Some s
  | v :: vs' =>
      match nth_error (s_num s) v with
      | None => None
      | Some None => match scc_dfs rows s v with Some s' => scc_nodes rows vs' s' | None => None end
      | Some (Some _) => scc_nodes rows vs' s
      end
  end.

(* strongly_connected_components.h:33-52, 54-80 strong_components on an object o; it returns the object, the
   results are s_comp, s_cc and s_bs.  m_blocksizes and the stacks are not reset *)
Definition strong_components (o : scc) (rows : list (list (option nat))) : option scc :=
  let n := length rows in
  scc_nodes rows (seq 0 n) (mk_scc (repeat None n) (repeat None n) 0 0 (s_bs o) (s_unf o) (s_rts o) (s_stk o)).

(* * what the two overloads pass to the search *)

(* mutable_graph.h:34-52 an edge: target, weight, flow, problem id of the flow *)
Record fedge := mk_fe { fe_t : nat; fe_w : N; fe_f : Z; fe_p : nat }.
(* mutable_graph.h:197-209 getEdgeFlow with and without a problem id (the reset of the stored flow is not kept) *)
Definition edge_flow (fpid : option nat) (e : fedge) : Z :=
  match fpid with None => fe_f e | Some p => if fe_p e =? p then fe_f e else 0%Z end.
(* strongly_connected_components.h:98-112 *)
Definition res_rows (fpid : option nat) (g : list (list fedge)) : list (list (option nat)) :=
  map (map (fun e => if (edge_flow fpid e =? Z.of_N (fe_w e))%Z then None else Some (fe_t e))) g.
(* strongly_connected_components.h:160-162 *)
Definition all_rows (rows : list (list (nat * N))) : list (list (option nat)) := map (map (fun e => Some (fst e))) rows.

(* * largest_scc *)

(* strongly_connected_components.h:201-204 compsizes *)
Fixpoint comp_sizes (cs : list (option nat)) (sz : list nat) : option (list nat) :=
  match cs with
  | [] => Some sz
  | Some c :: cs' => if c <? length sz then comp_sizes cs' (upd sz c (nth c sz 0 + 1)) else None
  | None :: _ => None
  end.
(* strongly_connected_components.h:206-207 std::max_element: the first largest; the end of an empty range is 0 *)
Fixpoint max_elem (i best bestv : nat) (l : list nat) : nat :=
  match l with
  | [] => best
  | x :: l' => if bestv <? x then max_elem (S i) i x l' else max_elem (S i) best bestv l'
  end.
Definition max_index (l : list nat) : nat := match l with [] => 0 | x :: l' => max_elem 1 0 x l' end.

(* graph_extractor.h:31-66 extract_block on the static graph; blk: partition index is the block.  The id of an
   extracted vertex is the number of earlier vertices of the block *)
Definition extract_row (blk : nat -> bool) (row : list (nat * N)) : list (nat * N) :=
  flat_map (fun e => if blk (fst e) then [(length (filter blk (seq 0 (fst e))), snd e)] else []) row.
Definition extract_rows (blk : nat -> bool) (rows : list (list (nat * N))) : list (list (nat * N)) :=
  map (fun v => extract_row blk (nth v rows [])) (filter blk (seq 0 (length rows))).
(* graph_extractor.h:47-65 the construction *)
Definition extract_block (blk : nat -> bool) (rows : list (list (nat * N))) : option csr :=
  let rs := extract_rows blk rows in build (length rs) (length (concat rows)) (script_of rs).

(* strongly_connected_components.h:196-219 largest_scc on a new object *)
Definition largest_scc (rows : list (list (nat * N))) : option csr :=
  match strong_components scc_new (all_rows rows) with
  | None => None
  | Some s =>
      match comp_sizes (s_comp s) (repeat 0 (s_cc s)) with
      | None => None
      | Some sz => extract_block (fun v => match nth v (s_comp s) None with Some c => c =? max_index sz | None => false end) rows
      end
  end.
