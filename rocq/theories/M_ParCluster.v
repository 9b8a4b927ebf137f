(* M_ParCluster.v - model of lib/parallel/coarsening/label_propagation.h propagate_labels as a machine of threads (one step
   per access to cluster_mapping) and of findTrivialCuts in lib/parallel/coarsening/contract_graph.h.  Which thread gets
   which vertex is arbitrary, and so is the vertex order (permutation); the random bits of thread i are the stream coin i.
   Memory is sequentially consistent.  NodeID and NodeWeight are 32 bits wide.  An out-of-range access is None. *)
From Verif Require Export M_Cluster.

(* parallel label_propagation.h:64-76 a thread: the vertices left in this iteration; the vertex at hand with the edges left,
   max_block and max_value; wgt; the number of random bits used *)
Record lth := mk_lth { q_todo : list nat; q_cur : option (nat * list (nat * N) * nat * N); q_wgt : list (nat * N); q_used : nat }.
Record lps := mk_lps { p_cl : list nat; p_thr : list lth }.

(* parallel label_propagation.h:82-92 an edge to a vertex of block, for vertex n: wgt, bits used, max_block, max_value *)
Definition pl_edge (coin : nat -> bool) (n block : nat) (w : N) (wgt : list (nat * N)) (used mb : nat) (mv : N) : option (list (nat * N) * nat * nat * N) :=
  match nth_error wgt block with
  | None => None
  | Some (o, x) =>
      let x' := (((if Nat.eqb o n then x else 0) + w) mod 2 ^ 32)%N in
      let wgt' := upd wgt block (n, x') in
      if (mv <? x')%N then Some (wgt', used, block, x')
      else if (x' =? mv)%N then Some (wgt', S used, if coin used then block else mb, mv)
      else Some (wgt', used, mb, mv)
  end.

(* parallel label_propagation.h:73-96 a step of thread i *)
Definition pl_step (G : graph) (coin : nat -> nat -> bool) (s : lps) (i : nat) : option lps :=
  match nth_error (p_thr s) i with
  | None => Some s
  | Some t =>
      match q_cur t with
      | None =>
          match q_todo t with
          | [] => Some s
          | n :: r =>
              match nth_error (p_cl s) n, nth_error G n with
              | Some own, Some es => Some (mk_lps (p_cl s) (upd (p_thr s) i (mk_lth r (Some (n, es, own, 0%N)) (q_wgt t) (q_used t))))
              | _, _ => None
              end
          end
      | Some (n, (tg, w) :: es, mb, mv) =>
          match nth_error (p_cl s) tg with
          | None => None
          | Some block =>
              match pl_edge (coin i) n block w (q_wgt t) (q_used t) mb mv with
              | None => None
              | Some (wgt', used', mb', mv') => Some (mk_lps (p_cl s) (upd (p_thr s) i (mk_lth (q_todo t) (Some (n, es, mb', mv')) wgt' used')))
              end
          end
      | Some (n, [], mb, _) =>
          if n <? length (p_cl s) then Some (mk_lps (upd (p_cl s) n mb) (upd (p_thr s) i (mk_lth (q_todo t) None (q_wgt t) (q_used t)))) else None
      end
  end.
Fixpoint pl_run (G : graph) (coin : nat -> nat -> bool) (s : lps) (sched : list nat) : option lps :=
  match sched with [] => Some s | i :: sched' => match pl_step G coin s i with Some s' => pl_run G coin s' sched' | None => None end end.
Definition pl_done (s : lps) : Prop := forall t, In t (p_thr s) -> q_todo t = [] /\ q_cur t = None.
(* parallel label_propagation.h:46-69 the start: every vertex its own cluster *)
Definition pl_init (G : graph) (assign : list (list nat)) : lps :=
  mk_lps (seq 0 (length G)) (map (fun vs => mk_lth vs None (repeat (0, 0%N) (length G)) 0) assign).
(* parallel label_propagation.h:71-96 the second iteration starts when all threads are done with the first; wgt is kept *)
Definition pl_again (s : lps) (assign : list (list nat)) : lps :=
  mk_lps (p_cl s) (map (fun p => mk_lth (snd p) None (q_wgt (fst p)) (q_used (fst p))) (combine (p_thr s) assign)).

(* parallel contract_graph.h:84-95 the edges of a vertex of block p: (node_degree, block_degree) *)
Definition pt_edge (mapping : list nat) (p : nat) (nb : N * N) (e : nat * N) : N * N :=
  if Nat.eqb (nth (fst e) mapping 0) p then (((fst nb + snd e) mod 2 ^ 32)%N, snd nb)
  else (((fst nb + 2 ^ 32 - snd e mod 2 ^ 32) mod 2 ^ 32)%N, ((snd nb + snd e) mod 2 ^ 32)%N).
(* parallel contract_graph.h:82-103 the members of block p; best = (improve, improve_idx), bd = block_degree *)
Fixpoint pt_block (G : graph) (mapping : list nat) (p i : nat) (best : N * nat) (bd : N) (members : list nat) : (N * nat) * N :=
  match members with
  | [] => (best, bd)
  | v :: ms =>
      let '(nd, bd') := fold_left (pt_edge mapping p) (nth v G []) (0%N, bd) in
      pt_block G mapping p (S i) (if (nd <? fst best)%N then (nd, i) else best) bd' ms
  end.
(* parallel contract_graph.h:75-115 one round of the loop for block p; the state: mapping, rev_mapping, target_mindeg.  Rounds of
   different threads are taken one after the other: they only touch what others read in 104-113 *)
Definition pt_round (G : graph) (s : list nat * list (list nat) * N) (p : nat) : list nat * list (list nat) * N :=
  let '(mapping, rev, target) := s in
  let members := nth p rev [] in
  if length members <? Nat.log2_up (length G) then
    let '((improve, idx), bd) := pt_block G mapping p 0 (0%N, 0) 0%N members in
    if (0 <? improve)%N && ((bd + improve) mod 2 ^ 32 <? target)%N && (1 <? length members) then
      (upd mapping (nth idx members 0) (length rev), upd rev p (firstn idx members ++ skipn (S idx) members) ++ [[nth idx members 0]], ((bd + improve) mod 2 ^ 32)%N)
    else s
  else s.
(* parallel contract_graph.h:64-118 findTrivialCuts; order: the blocks as the threads get to them; the cut is converted to NodeWeight *)
Definition find_trivial_par (G : graph) (mapping : list nat) (rev : list (list nat)) (cut : N) (order : list nat) : list nat * list (list nat) :=
  fst (fold_left (pt_round G) order (mapping, rev, (cut mod 2 ^ 32)%N)).
