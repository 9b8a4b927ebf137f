(* M_Split.v - model of the decomposition into components in lib/algorithms/multicut/multiterminal_cut.h: splitConnectedComponents
   and multicut, with graph_extractor.h extract_block on the mutable graph.  branch_multicut is a parameter: a function of
   the problem number, the graph before and after contracting the terminal blocks and the terminal positions.  The vectors
   problems, originalGraphs, globalTerminalIndex and fixedVertex grow together and are one list of records.  Edges carry
   no flow when the components are computed, as in a graph that was just read.  Flow values are ideal. *)
From Verif Require Export M_Scc M_IsoFlow.

(* graph_extractor.h:77-88 mapping: the vertices of the block in ascending order *)
Definition ext_map (blk : nat -> bool) (n : nat) : list nat := filter blk (seq 0 n).
(* graph_extractor.h:79-88 reverse_mapping *)
Definition ext_rev (blk : nat -> bool) (n : nat) : list nat :=
  map (fun v => if blk v then length (filter blk (seq 0 v)) else n + 1) (seq 0 n).
(* graph_extractor.h:95-103 the edges of one node *)
Fixpoint ext_edges (blk : nat -> bool) (rev : list nat) (new : nat) (es : list half) (M : mg) : option mg :=
  match es with
  | [] => Some M
  | (t, w, _) :: es' =>
      if blk t then match m_new_edge M new (nth t rev 0) w with Some M' => ext_edges blk rev new es' M' | None => None end
      else ext_edges blk rev new es' M
  end.
(* graph_extractor.h:92-105 the nodes of the block; new_node returns the number it creates *)
Fixpoint ext_nodes (blk : nat -> bool) (rev : list nat) (rows : list (list half)) (vs : list nat) (M : mg) : option mg :=
  match vs with
  | [] => Some M
  | v :: vs' =>
      match ext_edges blk rev (m_last M) (nth v rows []) (new_node M) with
      | Some M' => ext_nodes blk rev rows vs' M'
      | None => None
      end
  end.
(* graph_extractor.h:68-107 extract_block on the mutable graph *)
Definition m_extract (blk : nat -> bool) (G : mg) : option mg :=
  let map := ext_map blk (m_n G) in
  option_map m_finish (ext_nodes blk (ext_rev blk (m_n G)) (m_rows G) map (start_construction (length map))).

(* multiterminal_cut.h:222-230 terminalInProblem and numTerminalsInProblem; i is the vertex of the head of comp *)
Fixpoint count_terms (tm : list (option nat)) (comp : list (option nat)) (i : nat) (tip : list (list bool)) (num : list nat)
  : option (list (list bool) * list nat) :=
  match comp with
  | [] => Some (tip, num)
  | oc :: comp' =>
      match nth_error tm i with
      | None => None
      | Some None => count_terms tm comp' (S i) tip num
      | Some (Some t) =>
          match oc with
          | None => None
          | Some c =>
              match nth_error tip c with
              | None => None
              | Some row =>
                  match nth_error row t with
                  | None => None
                  | Some true => count_terms tm comp' (S i) tip num
                  | Some false => count_terms tm comp' (S i) (upd tip c (upd row t true)) (upd num c (nth c num 0 + 1))
                  end
              end
          end
      end
  end.

(* multiterminal_cut.h:240-246 the last terminal found *)
Fixpoint last_true (row : list bool) (i : nat) (t : option nat) : option nat :=
  match row with [] => t | b :: row' => last_true row' (S i) (if b then Some i else t) end.

(* multiterminal_cut.h:206-215 one component: the graphs, terminal positions, fixed vertices and terminal numbers *)
Record prob := mk_prob { q_orig : mg; q_graph : mg; q_terms : list nat; q_fixed : list bool; q_gti : list nat }.

(* multiterminal_cut.h:263-275 the vertices of the component; None also stands for exit(1) in line 268 *)
Fixpoint place (tm : list (option nat)) (c : nat) (vs : list nat) (i : nat) (npm pip : list (option nat)) (bl : list (list nat)) (fx : list bool)
  : option (list (option nat) * list (option nat) * list (list nat) * list bool) :=
  match vs with
  | [] => Some (npm, pip, bl, fx)
  | n :: vs' =>
      match nth_error pip n, nth_error npm n, nth_error tm n with
      | Some None, Some _, Some None => place tm c vs' (S i) (upd npm n (Some c)) (upd pip n (Some i)) bl fx
      | Some None, Some _, Some (Some t) =>
          if (t <? length bl) && (i <? length fx) then
            place tm c vs' (S i) (upd npm n (Some c)) (upd pip n (Some i)) (upd bl t (nth t bl [] ++ [i])) (upd fx i true)
          else None
      | _, _, _ => None
      end
  end.

(* multiterminal_cut.h:277-284 problemTerms and globalTerminalIndex from the blocks with number t, t+1, ... *)
Fixpoint pick_terms (bl : list (list nat)) (t : nat) : list nat * list nat :=
  match bl with
  | [] => ([], [])
  | b :: bl' => let '(ps, gs) := pick_terms bl' (S t) in match b with [] => (ps, gs) | x :: _ => (x :: ps, t :: gs) end
  end.

(* multiterminal_cut.h:213-235 the vectors filled by the loop *)
Record sst := mk_sst { ss_probs : list prob; ss_npm : list (option nat); ss_pip : list (option nat); ss_one : list (option nat) }.

(* multiterminal_cut.h:238-290 the loop body for component c *)
Definition split_comp (ord : list nat -> list nat) (k : nat) (tm comp : list (option nat)) (G : mg) (tip : list (list bool)) (num : list nat)
    (s : sst) (c : nat) : option sst :=
  let one := if nth c num 0 =? 1 then upd (ss_one s) c (last_true (nth c tip []) 0 None) else ss_one s in
  if 2 <=? nth c num 0 then
    let blk := fun v => match nth v comp None with Some c' => c' =? c | None => false end in
    match m_extract blk G with
    | None => None
    | Some Gb =>
        match place tm c (ext_map blk (m_n G)) 0 (ss_npm s) (ss_pip s) (repeat [] k) (repeat false (m_n Gb)) with
        | None => None
        | Some (npm, pip, bl, fx) =>
            let '(ps, gs) := pick_terms bl 0 in
            match contract_blocks ord bl Gb with
            | None => None
            | Some Gc => Some (mk_sst (ss_probs s ++ [mk_prob Gb Gc ps fx gs]) npm pip one)
            end
        end
    end
  else Some (mk_sst (ss_probs s) (ss_npm s) (ss_pip s) one).
(* multiterminal_cut.h:238 all components *)
Fixpoint split_comps (ord : list nat -> list nat) (k : nat) (tm comp : list (option nat)) (G : mg) (tip : list (list bool)) (num : list nat)
    (s : sst) (cs : list nat) : option sst :=
  match cs with
  | [] => Some s
  | c :: cs' => match split_comp ord k tm comp G tip num s c with Some s' => split_comps ord k tm comp G tip num s' cs' | None => None end
  end.

(* mutable_graph.h:34-46 edges without flow *)
Definition no_flow (G : mg) : list (list fedge) := map (map (fun h : half => mk_fe (fst (fst h)) (snd (fst h)) 0 0)) (m_rows G).

(* multiterminal_cut.h:196-303 splitConnectedComponents; k: num_terminals, tm: terminalMapping; returns also components *)
Definition split (ord : list nat -> list nat) (k : nat) (tm : list (option nat)) (G : mg) : option (sst * list (option nat)) :=
  match strong_components scc_new (res_rows None (no_flow G)) with
  | None => None
  | Some sc =>
      match count_terms tm (s_comp sc) 0 (repeat (repeat false k) (s_cc sc)) (repeat 0 (s_cc sc)) with
      | None => None
      | Some (tip, num) =>
          match split_comps ord k tm (s_comp sc) G tip num
                  (mk_sst [] (repeat None (m_n G)) (repeat None (m_n G)) (repeat None (s_cc sc))) (seq 0 (s_cc sc)) with
          | None => None
          | Some s => Some (s, s_comp sc)
          end
      end
  end.

(* multiterminal_cut.h:105-128 solving the problems in turn: solutions and flow_sum *)
Fixpoint solve_all (solve : nat -> prob -> option (list nat * N)) (p : nat) (ps : list prob) : option (list (list nat) * N) :=
  match ps with
  | [] => Some ([], 0%N)
  | q :: ps' =>
      match solve p q with
      | None => None
      | Some (sol, fl) => match solve_all solve (S p) ps' with Some (sols, sum) => Some (sol :: sols, (fl + sum)%N) | None => None end
      end
  end.

(* multiterminal_cut.h:132-147 the block of vertex i *)
Definition global_block (s : sst) (comp : list (option nat)) (sols : list (list nat)) (i : nat) : option nat :=
  match nth_error (ss_npm s) i with
  | Some None =>
      match nth_error comp i with
      | Some (Some c) => match nth_error (ss_one s) c with Some (Some b) => Some b | Some None => Some 0 | None => None end
      | _ => None
      end
  | Some (Some pr) =>
      match nth_error sols pr, nth_error (ss_pip s) i, nth_error (ss_probs s) pr with
      | Some sol, Some (Some loc), Some q => match nth_error sol loc with Some b => nth_error (q_gti q) b | None => None end
      | _, _, _ => None
      end
  | None => None
  end.
(* multiterminal_cut.h:130-149 globalSolution; blocksize has num_terminals entries *)
Fixpoint assemble (k : nat) (s : sst) (comp : list (option nat)) (sols : list (list nat)) (is : list nat) : option (list nat) :=
  match is with
  | [] => Some []
  | i :: is' =>
      match global_block s comp sols i with
      | Some b => if b <? k then option_map (cons b) (assemble k s comp sols is') else None
      | None => None
      end
  end.

(* multiterminal_cut.h:92-156 multicut: the value, and the solution if it is written *)
Definition multicut (ord : list nat -> list nat) (solve : nat -> prob -> option (list nat * N)) (write : bool) (k : nat) (tm : list (option nat)) (G : mg)
  : option (N * option (list nat)) :=
  match split ord k tm G with
  | None => None
  | Some (s, comp) =>
      match solve_all solve 0 (ss_probs s) with
      | None => None
      | Some (sols, sum) =>
          if write then match assemble k s comp sols (seq 0 (m_n G)) with Some g => Some (sum, Some g) | None => None end
          else Some (sum, None)
      end
  end.
