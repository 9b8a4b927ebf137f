(* M_IsoFlow.v - model of lib/algorithms/multicut/maximum_flow.h (maximumIsolatingFlow, maximumSTFlow,
   nonTerminalFlow) and of contractIsolatingBlocks, graph_contraction.h.
   Every flow runs as in M_PushRelabel (private flow vectors; see C51 for the flow kept in the graph).  Each run
   has its own order of vertex selection pick and schedule gl of global relabelings. *)
From Verif Require Export M_Kernel M_PushRelabel.

(* multicut_problem.h:25-41 struct terminal: position, original_id, invalid_flow *)
Definition term := (nat * nat * bool)%type.
(* multicut_problem.h:38-40 *)
Definition t_at (t : term) : nat := fst (fst t).
Definition t_id (t : term) : nat := snd (fst t).
Definition t_inv (t : term) : bool := snd t.

(* graph_contraction.h:114-118, 127-128 invalid_flows: the flag of the last terminal that was at v before *)
Definition flag_at (old : list term) (v : nat) : bool :=
  match find (fun t => t_at t =? v) (rev old) with Some t => t_inv t | None => true end.

(* graph_contraction.h:112-132 setTerminals with the flags *)
Definition set_terms (G : mg) (maps : list (list nat)) (origs : list nat) (old : list term) : option (list term) :=
  option_map (map (fun p : nat * nat => (p, flag_at old (fst p)))) (set_terminals G maps origs 0).

(* graph_contraction.h:41-49 one block: the original vertices that stand for its members not contracted yet *)
Fixpoint iso_base (G : mg) (bl : list nat) (dn : list bool) : option (list nat * list bool) :=
  match bl with
  | [] => Some ([], dn)
  | v :: bl' =>
      if nth v dn false then iso_base G bl' dn
      else
        match nth v (m_cont G) [] with
        | [] => None
        | x :: _ =>
            match iso_base G bl' (upd dn v true) with
            | Some (xs, dn') => Some (x :: xs, dn')
            | None => None
            end
        end
  end.

(* graph_contraction.h:34-50 *)
Fixpoint iso_bases (G : mg) (bls : list (list nat)) (dn : list bool) : option (list (list nat)) :=
  match bls with
  | [] => Some []
  | bl :: bls' =>
      if 1 <? length bl then
        match iso_base G bl dn with
        | None => None
        | Some (xs, dn') => option_map (cons xs) (iso_bases G bls' dn')
        end
      else option_map (cons []) (iso_bases G bls' dn)
  end.

(* graph_contraction.h:28-68 contractIsolatingBlocks; the classes are numbered, the numbers do not matter *)
Definition contract_blocks (ord : list nat -> list nat) (bls : list (list nat)) (G : mg) : option mg :=
  match iso_bases G bls (repeat false (m_n G)) with
  | None => None
  | Some xss => contract_classes ord (combine (seq 0 (length xss)) xss) G
  end.

(* maximum_flow.h:225-257 the blocks, flows one after the other: run k is the flow from terminal k *)
Fixpoint blocks_seq (run : nat -> option (Z * list nat)) (k : nat) (ts : list term) : option (list (list nat)) :=
  match ts with
  | [] => Some []
  | t :: ts' =>
      match (if t_inv t then option_map snd (run k) else Some [t_at t]), blocks_seq run (S k) ts' with
      | Some b, Some bs => Some (b :: bs)
      | _, _ => None
      end
  end.

(* maximum_flow.h:228, 253-255 the blocks before the flows have ended, flows in threads *)
Definition blocks_init (ts : list term) : list (list nat) := map (fun t => if t_inv t then [] else [t_at t]) ts.

(* maximum_flow.h:237-241 futures *)
Fixpoint futures (run : nat -> option (Z * list nat)) (k : nat) (ts : list term) : option (list (list nat)) :=
  match ts with
  | [] => Some []
  | t :: ts' =>
      match futures run (S k) ts' with
      | None => None
      | Some fs => if t_inv t then match run k with Some (_, b) => Some (b :: fs) | None => None end else Some fs
      end
  end.

(* maximum_flow.h:259-263 the i-th future is written to the i-th block *)
Fixpoint put (fs bs : list (list nat)) : list (list nat) :=
  match fs, bs with f :: fs', _ :: bs' => f :: put fs' bs' | _, _ => bs end.

(* maximum_flow.h:213-271 *)
Definition iso_blocks (par : bool) (run : nat -> option (Z * list nat)) (ts : list term) : option (list (list nat)) :=
  if par then option_map (fun fs => put fs (blocks_init ts)) (futures run 0 ts) else blocks_seq run 0 ts.

(* maximum_flow.h:277-290 maximum, sum, max_index *)
Fixpoint deg_scan (G : mg) (maps : list (list nat)) (origs : list nat) (ts : list term) (st : N * N * nat) : option (N * N * nat) :=
  match ts with
  | [] => Some st
  | t :: ts' =>
      match nth_error origs (t_id t) with
      | None => None
      | Some o =>
          match mapped maps o with
          | None => None
          | Some o' =>
              match nth_error (m_pos G) o' with
              | None => None
              | Some v =>
                  let d := nth v (m_deg G) 0%N in
                  let '(mx, sm, mi) := st in
                  deg_scan G maps origs ts' (if (mx <? d)%N then (d, (sm + d)%N, t_id t) else (mx, (sm + d)%N, mi))
              end
          end
      end
  end.

(* maximum_flow.h:296-300 (also 50-54): setPartitionIndex of the positions of the terminals *)
Fixpoint part_terms (G : mg) (maps : list (list nat)) (l : nat) (origs : list nat) (p : list nat) : option (list nat) :=
  match origs with
  | [] => Some p
  | o :: origs' =>
      match mapped maps o with
      | None => None
      | Some o' =>
          match nth_error (m_pos G) o' with
          | None => None
          | Some v => if m_n G <=? v then None else part_terms G maps (S l) origs' (upd p v l)
          end
      end
  end.

(* mutable_graph.h setPartitionIndex on every vertex *)
Definition with_part (G : mg) (p : list nat) : mg :=
  mk_mg (m_rows G) (m_deg G) p (m_cut G) (m_pos G) (m_cont G) (m_last G) (m_ne G) (m_pc G) (m_orig G).

(* maximum_flow.h:202-306 maximumIsolatingFlow: graph, terminals, upper_bound, lower_bound *)
Definition isolating_flow (fuel : nat) (pick : nat -> nat -> list nat -> nat) (gl : nat -> nat -> bool) (par : bool)
    (ord : list nat -> list nat) (maps : list (list nat)) (origs : list nat) (G : mg) (old : list term) (deleted : N)
  : option (mg * list term * N * N) :=
  match set_terms G maps origs old with
  | None => None
  | Some ts =>
      match iso_blocks par (fun k => solve_max_flow fuel (pick k) (gl k) (m_rows G) (map t_at ts) k) ts with
      | None => None
      | Some bls =>
          match contract_blocks ord bls G with
          | None => None
          | Some G1 =>
              let ts1 := map (fun t => (fst t, false)) ts in
              match deg_scan G1 maps origs ts1 (0%N, 0%N, 0) with
              | None => None
              | Some (mx, sm, mi) =>
                  match part_terms G1 maps 0 origs (repeat mi (m_n G1)) with
                  | None => None
                  | Some p =>
                      let G2 := with_part G1 p in
                      match set_terms G2 maps origs ts1 with
                      | None => None
                      | Some ts2 => Some (G2, ts2, (deleted + sm - mx)%N, (deleted + (sm + 1) / 2)%N)
                      end
                  end
              end
          end
      end
  end.

(* maximum_flow.h:57-59 the isolating block *)
Definition part_block (bl : list nat) (b : nat) (p : list nat) : list nat := fold_left (fun p v => upd p v b) bl p.

(* maximum_flow.h:32-62 maximumSTFlow: graph and upper_bound *)
Definition st_flow (fuel : nat) (pick : nat -> list nat -> nat) (gl : nat -> bool)
    (maps : list (list nat)) (origs : list nat) (G : mg) (ts : list term) (deleted : N) : option (mg * N) :=
  match solve_max_flow fuel pick gl (m_rows G) (map t_at ts) 0, ts with
  | Some (c, bl), t0 :: t1 :: _ =>
      match part_terms G maps 0 origs (repeat (t_id t1) (m_n G)) with
      | None => None
      | Some p => Some (with_part G (part_block bl (t_id t0) p), (Z.to_N c + deleted)%N)
      end
  | _, _ => None
  end.

(* maximum_flow.h:148-150, 184-186, 190-197 uf.Union of every member of the source set with the start vertex *)
Fixpoint union_all (u : uf) (r : nat) (l : list nat) : option uf :=
  match l with
  | [] => Some u
  | s :: l' => match uf_union u s r with Some (u', _) => union_all u' r l' | None => None end
  end.

(* maximum_flow.h:92-200 nonTerminalFlow: one flow from every vertex of rs (the vertices chosen at random in
   117-152 and 154-188) to the terminals, all on the same graph *)
Fixpoint nonterminal_flow (fuel : nat) (pick : nat -> nat -> list nat -> nat) (gl : nat -> nat -> bool) (G : mg) (ts rs : list nat) (u : uf) : option uf :=
  match rs with
  | [] => Some u
  | r :: rs' =>
      match solve_max_flow fuel (pick r) (gl r) (m_rows G) (ts ++ [r]) (length ts) with
      | Some (_, l) => match union_all u r l with Some u' => nonterminal_flow fuel pick gl G ts rs' u' | None => None end
      | None => None
      end
  end.
