(* M_Cluster.v - model of lib/coarsening/label_propagation.h, minimum_cut_helpers.h remap_cluster and
   contract_graph.h findTrivialCuts (sequential, static graphs).  The shuffled vertex order is the
   parameter perm, the random bits are the stream coin.  An out-of-range vector access is None.
   Connection strengths are unbounded (the code: uint64); findTrivialCuts computes in Z (int64). *)
From Coq Require Export ZArith.
From Verif Require Export M_CutHelpers.

(* label_propagation.h:46-47 hash_vec, and the number of random bits used so far *)
Record lpst := mk_lp { lp_hash : list (N * nat); lp_cl : list nat; lp_used : nat }.

(* label_propagation.h:66-83 one edge of v; (mv, mb) = (max_value, max_block) *)
Definition lp_edge (coin : nat -> bool) (v : nat) (st : lpst * (N * nat)) (e : nat * N) : option (lpst * (N * nat)) :=
  let '(s, (mv, mb)) := st in
  let '(t, w) := e in
  match nth_error (lp_cl s) t with
  | None => None
  | Some block =>
      match nth_error (lp_hash s) block with
      | None => None
      | Some (f, o) =>
          let f' := ((if Nat.eqb o v then f else 0) + w)%N in
          let h' := upd (lp_hash s) block (f', v) in
          if (mv <? f')%N then Some (mk_lp h' (lp_cl s) (lp_used s), (f', block))
          else if (f' =? mv)%N then
            Some (mk_lp h' (lp_cl s) (S (lp_used s)), if coin (lp_used s) then (f', block) else (mv, mb))
          else Some (mk_lp h' (lp_cl s) (lp_used s), (mv, mb))
      end
  end.

(* label_propagation.h:66-83 the edges of v *)
Fixpoint lp_edges (coin : nat -> bool) (v : nat) (st : lpst * (N * nat)) (es : list (nat * N)) : option (lpst * (N * nat)) :=
  match es with
  | [] => Some st
  | e :: es' => match lp_edge coin v st e with Some st' => lp_edges coin v st' es' | None => None end
  end.

(* label_propagation.h:62-85 one iteration over the vertices in the order perm *)
Fixpoint lp_round (coin : nat -> bool) (G : graph) (s : lpst) (vs : list nat) : option lpst :=
  match vs with
  | [] => Some s
  | v :: vs' =>
      match nth_error (lp_cl s) v, nth_error G v with
      | Some own, Some es =>
          match lp_edges coin v (s, (0%N, own)) es with
          | Some (s', (_, b)) => lp_round coin G (mk_lp (lp_hash s') (upd (lp_cl s') v b) (lp_used s')) vs'
          | None => None
          end
      | _, _ => None
      end
  end.

(* label_propagation.h:36-90 propagate_labels: two iterations *)
Definition propagate_labels (coin : nat -> bool) (perm : list nat) (G : graph) : option (list nat) :=
  let n := length G in
  match lp_round coin G (mk_lp (repeat (0%N, 0) n) (seq 0 n) 0) perm with
  | None => None
  | Some s1 => match lp_round coin G s1 perm with None => None | Some s2 => Some (lp_cl s2) end
  end.

(* minimum_cut_helpers.h:130-144 the numbering loop of remap_cluster; part[] as options *)
Fixpoint remap_loop (part : list (option nat)) (mapping : list nat) (rev : list (list nat)) (v : nat) (cl : list nat)
  : option (list nat * list (list nat)) :=
  match cl with
  | [] => Some (mapping, rev)
  | c :: cl' =>
      match nth_error part c with
      | None => None
      | Some None => remap_loop (upd part c (Some (length rev))) (mapping ++ [length rev]) (rev ++ [[v]]) (S v) cl'
      | Some (Some p) => remap_loop part (mapping ++ [p]) (upd rev p (nth p rev [] ++ [v])) (S v) cl'
      end
  end.

(* minimum_cut_helpers.h:117-147 remap_cluster: mapping and reverse_mapping; cur_no_clusters is always
   the size of reverse_mapping *)
Definition remap_cluster (G : graph) (cl : list nat) : option (list nat * list (list nat)) :=
  remap_loop (repeat None (length G)) [] [] 0 cl.

(* conversion of a 64-bit value to int (two's complement) *)
Definition to_int32 (x : Z) : Z := ((x + 2147483648) mod 4294967296 - 2147483648)%Z.

(* contract_graph.h:96-107 the edges of one vertex of block p: (node_degree, block_degree) *)
Definition trivial_node (mapping : list nat) (p : nat) (nb : Z * Z) (e : nat * N) : Z * Z :=
  if Nat.eqb (nth (fst e) mapping 0) p then ((fst nb + Z.of_N (snd e))%Z, snd nb)
  else ((fst nb - Z.of_N (snd e))%Z, (snd nb + Z.of_N (snd e))%Z).

(* contract_graph.h:92-114 the members of block p; best = (improve, improve_idx), bd = block_degree *)
Fixpoint trivial_block (G : graph) (mapping : list nat) (p : nat) (i : nat) (best : Z * nat) (bd : Z) (members : list nat)
  : (Z * nat) * Z :=
  match members with
  | [] => (best, bd)
  | v :: ms =>
      let '(nd, bd') := fold_left (trivial_node mapping p) (nth v G []) (0%Z, bd) in
      trivial_block G mapping p (S i) (if (nd <? fst best)%Z then (nd, i) else best) bd' ms
  end.

(* contract_graph.h:85-131 the loop over the blocks; the fuel bounds the number of loop rounds *)
Fixpoint trivial_loop (fuel : nat) (G : graph) (mapping : list nat) (rev : list (list nat)) (target : Z) (p : nat)
  : option (list nat * list (list nat)) :=
  if p <? length rev then
    match fuel with
    | 0 => None
    | S fuel' =>
        let members := nth p rev [] in
        if length members <? Nat.log2_up (length G) then
          let '((improve, idx), bd) := trivial_block G mapping p 0 (0%Z, 0) 0%Z members in
          if (improve <? 0)%Z && (bd + improve <? target)%Z && (1 <? length members) then
            let best := nth idx members 0 in
            trivial_loop fuel' G (upd mapping best (length rev))
              (upd rev p (firstn idx members ++ skipn (S idx) members) ++ [[best]])
              (to_int32 (bd + improve)) p
          else trivial_loop fuel' G mapping rev target (S p)
        else trivial_loop fuel' G mapping rev target (S p)
    end
  else Some (mapping, rev).

(* contract_graph.h:75-131 findTrivialCuts; the parameter target_mindeg is an int.  At most one round per
   block and one per new block: 2n + 1 rounds. *)
Definition find_trivial_cuts (G : graph) (mapping : list nat) (rev : list (list nat)) (cut : N)
  : option (list nat * list (list nat)) :=
  trivial_loop (2 * length G + 1) G mapping rev (to_int32 (Z.of_N cut)) 0.
