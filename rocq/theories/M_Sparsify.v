(* M_Sparsify.v - model of lib/coarsening/sparsify.h: random_matching and remove_heavy_vertices on edge lists (see M_Contract).
   The numbers of random_functions::next are the stream draw.  Weights are unbounded; the places of edges in edge_positions
   (NodeID) are taken to be exact.  None: modulo by zero, or an access out of range. *)
From Verif Require Export SpecCut.

(* sparsify.h:69-80 up to MAX_TRIES draws for a partner of n; em: edge_matching; k: draws used so far *)
Fixpoint rm_try (tries : nat) (G : graph) (draw : nat -> nat) (em : list nat) (n k : nat) : option (option nat * nat) :=
  match tries with
  | 0 => Some (None, k)
  | S tries' =>
      match length (nth n G []) with
      | 0 => None
      | d =>
          let tgt := fst (nth (draw k mod d) (nth n G []) (0, 0%N)) in
          if nth tgt em 0 =? tgt then Some (Some tgt, S k) else rm_try tries' G draw em n (S k)
      end
  end.
(* sparsify.h:56-63 the state of the matching loop: edge_matching, coarse_mapping, the draws used.  m_log: who got the coarse
   vertices 0, 1, ...; no_of_coarse_vertices is its length *)
Record rmst := mk_rm { m_em : list nat; m_cm : list nat; m_k : nat; m_log : list (nat * option nat) }.
(* sparsify.h:66-93 vertex n *)
Definition rm_vertex (G : graph) (draw : nat -> nat) (s : rmst) (n : nat) : option rmst :=
  if nth n (m_em s) 0 =? n then
    match rm_try 50 G draw (m_em s) n (m_k s) with
    | None => None
    | Some (None, k) => Some (mk_rm (upd (m_em s) n n) (upd (m_cm s) n (length (m_log s))) k (m_log s ++ [(n, None)]))
    | Some (Some p, k) =>
        Some (mk_rm (upd (upd (m_em s) p n) n p) (upd (upd (m_cm s) p (length (m_log s))) n (length (m_log s))) k (m_log s ++ [(n, Some p)]))
    end
  else Some s.
Fixpoint rm_loop (G : graph) (draw : nat -> nat) (s : rmst) (ns : list nat) : option rmst :=
  match ns with [] => Some s | n :: ns' => match rm_vertex G draw s n with Some s' => rm_loop G draw s' ns' | None => None end end.
(* sparsify.h:55-94 the matching *)
Definition rm_match (G : graph) (draw : nat -> nat) : option rmst :=
  rm_loop G draw (mk_rm (seq 0 (length G)) (repeat 0 (length G)) 0 []) (seq 0 (length G)).

(* sparsify.h:122-134, 147-160 the edge goes to the coarse vertex t: a new edge, or more weight on the one that is there *)
Definition rm_add (row : list (nat * N)) (t : nat) (w : N) : list (nat * N) :=
  if existsb (fun e => fst e =? t) row then map (fun e => if fst e =? t then (fst e, (snd e + w)%N) else e) row else row ++ [(t, w)].
(* sparsify.h:114-135, 140-161 the edges es of a vertex of the coarse vertex c; cnt: the size of edge_positions *)
Fixpoint rm_edges (cm : list nat) (cnt c : nat) (row : list (nat * N)) (es : list (nat * N)) : option (list (nat * N)) :=
  match es with
  | [] => Some row
  | (x, w) :: es' =>
      let t := nth x cm 0 in
      if t =? c then rm_edges cm cnt c row es'
      else if t <? cnt then rm_edges cm cnt c (rm_add row t w) es' else None
  end.
(* sparsify.h:106-165 the loop over the vertices; rows: the coarse vertices made so far (cur_no_vertices is their number) *)
Fixpoint rm_build (G : graph) (em cm : list nat) (cnt : nat) (rows : graph) (ns : list nat) : option graph :=
  match ns with
  | [] => Some rows
  | n :: ns' =>
      if nth n cm 0 <? length rows then rm_build G em cm cnt rows ns'
      else if length rows <? cnt then
        match rm_edges cm cnt (length rows) [] (nth n G []) with
        | None => None
        | Some row =>
            match (if nth n em 0 =? n then Some row else rm_edges cm cnt (length rows) row (nth (nth n em 0) G [])) with
            | None => None
            | Some row' => rm_build G em cm cnt (rows ++ [row']) ns'
            end
        end
      else None
  end.
(* sparsify.h:51-168 (and, the same text, parallel/coarsening/sparsify.h:283-408) random_matching; the coarse vertices never made have no edges *)
Definition random_matching (G : graph) (draw : nat -> nat) : option graph :=
  match rm_match G draw with
  | None => None
  | Some s =>
      match rm_build G (m_em s) (m_cm s) (length (m_log s)) [] (seq 0 (length G)) with
      | None => None
      | Some rows => Some (rows ++ repeat [] (length (m_log s) - length rows))
      end
  end.

(* sparsify.h:188 the vertex is taken out; bound: getPercentile (graph_access.h:525-537), any number here *)
Definition rh_heavy (bound : N) (G : graph) (v : nat) : bool := negb (sumN snd (nth v G []) <? bound)%N.
(* sparsify.h:187-194 prefixsum; None stands for number_of_nodes *)
Fixpoint rh_sum (heavy : nat -> bool) (ctr : nat) (vs : list nat) : list (option nat) :=
  match vs with [] => [] | v :: vs' => if heavy v then None :: rh_sum heavy ctr vs' else Some ctr :: rh_sum heavy (S ctr) vs' end.
(* sparsify.h:203-210 the edges of a vertex; new_edge sets the weight 1 *)
Definition rh_row (pre : list (option nat)) (es : list (nat * N)) : list (nat * N) :=
  flat_map (fun e => match nth (fst e) pre None with Some t => [(t, 1%N)] | None => [] end) es.
(* sparsify.h:170-217 remove_heavy_vertices: the graph and prefixsum *)
Definition remove_heavy (bound : N) (G : graph) : graph * list (option nat) :=
  let heavy := rh_heavy bound G in
  let pre := rh_sum heavy 0 (seq 0 (length G)) in
  (map (fun v => rh_row pre (nth v G [])) (filter (fun v => negb (heavy v)) (seq 0 (length G))), pre).

(* app/mincut_heavy.cpp:114-140 the side of vertex v of G, given the sides of the vertices of the smaller graph; a tie goes inside *)
Definition heavy_side (pre : list (option nat)) (side : nat -> bool) (G : graph) (v : nat) : bool :=
  match nth v pre None with
  | Some t => side t
  | None =>
      let ins := filter (fun e => match nth (fst e) pre None with Some t => side t | None => false end) (nth v G []) in
      let outs := filter (fun e => match nth (fst e) pre None with Some t => negb (side t) | None => false end) (nth v G []) in
      if length outs <? length ins then true else if length ins <? length outs then false else true
  end.
(* quality_metrics.h:23-37 edge_cut *)
Definition edge_cut (G : graph) (part : nat -> nat) : N :=
  (bsum (length G) (fun u => sumN (fun e => if Nat.eqb (part u) (part (fst e)) then 0%N else snd e) (nth u G [])) / 2)%N.
(* app/mincut_heavy.cpp:84, 111-167 the number printed; alg: the sides that the algorithm leaves on the smaller graph *)
Definition mincut_heavy (bound : N) (alg : graph -> nat -> bool) (G : graph) : N :=
  let (G2, pre) := remove_heavy bound G in
  edge_cut G (fun v => if heavy_side pre (alg G2) G v then 0 else 1).
