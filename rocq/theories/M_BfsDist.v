(* M_BfsDist.v - model of graph_algorithms::bfsDistances, lib/algorithms/misc/graph_algorithms.h:182-212.
   The graph is the list of target lists (getEdgeTarget(v, e) for e in edges_of(v)). *)
From Verif Require Export Lib.

(* graph_algorithms.h:184-190: the vectors parent (None: UNDEFINED_NODE), distance, discovered, the counter
   vtcs and the queue *)
Record bst := mk_bst { b_par : list (option nat); b_dist : list nat; b_disc : list bool; b_vtcs : nat; b_q : list nat }.

(* graph_algorithms.h:199-203, 207: discovery of t from top without the test of vtcs *)
Definition b_found (top t : nat) (s : bst) : bst :=
  mk_bst (upd (b_par s) t (Some top)) (upd (b_dist s) t (nth top (b_dist s) 0 + 1)) (upd (b_disc s) t true) (S (b_vtcs s)) (b_q s ++ [t]).

(* graph_algorithms.h:196-209 the loop over edges_of(top); inr: the return in line 205, there the queue is not used any more *)
Fixpoint b_scan (n top : nat) (row : list nat) (s : bst) : bst + (bst * nat) :=
  match row with
  | [] => inl s
  | t :: row' =>
      if nth t (b_disc s) false then b_scan n top row' s
      else let s' := b_found top t s in if b_vtcs s' =? n then inr (s', t) else b_scan n top row' s'
  end.

(* graph_algorithms.h:193-211 the outer loop; None: fuel exhausted *)
Fixpoint b_loop (fuel : nat) (nb : list (list nat)) (top : option nat) (s : bst) : option (bst * option nat) :=
  match b_q s with
  | [] => Some (s, top)
  | v :: q =>
      match fuel with
      | 0 => None
      | S f =>
          match b_scan (length nb) v (nth v nb []) (mk_bst (b_par s) (b_dist s) (b_disc s) (b_vtcs s) q) with
          | inl s' => b_loop f nb (Some v) s'
          | inr (s', t) => Some (s', Some t)
          end
      end
  end.

(* graph_algorithms.h:182-212; start out of range: None *)
Definition bfs_distances (nb : list (list nat)) (start : nat) : option (list (option nat) * list nat * option nat) :=
  let n := length nb in
  if start <? n then
    match b_loop n nb None (mk_bst (repeat None n) (repeat 0 n) (upd (repeat false n) start true) 1 [start]) with
    | Some (s, far) => Some (b_par s, b_dist s, far)
    | None => None
    end
  else None.
