(* M_Heur.v - models of lib/algorithms/global_mincut/matula_approx.h, padberg_rinaldi.h, viecut.h
   (sequential, static graphs) and ks_minimum_cut.h.  Random numbers and hash-set orders are parameters. *)
From Verif Require Export M_Noi M_PRTests M_Cluster.

(* matula_approx.h:52-60 the contraction loop (rounds numbered downwards by the fuel) *)
Fixpoint matula_loop (fuel : nat) (cf : cfg) (rnd : nat -> nat) (ord : nat -> nat -> list nat -> list nat)
    (maps : list (list nat)) (G : graph) (mincut : N) (marks : list bool) : option (N * list bool) :=
  if (2 <? length G) && (0 <? mincut)%N then
    match fuel with
    | 0 => None
    | S fuel' =>
        match capforest cf (rnd fuel) G (N.max (mincut / 2) 1) with
        | None => None
        | Some u =>
            match from_union_find (ord fuel) G u with
            | None => None
            | Some (H, mapping) =>
                let '(mincut', marks') := update_cut (maps ++ [mapping]) H mincut marks in
                matula_loop fuel' cf rnd ord (maps ++ [mapping]) H mincut' marks'
            end
        end
    end
  else Some (mincut, marks).

(* matula_approx.h:44-67 perform_minimum_cut with save_cut: value and in-cut marks *)
Definition matula (cf : cfg) (rnd : nat -> nat) (ord : nat -> nat -> list nat -> list nat) (G : graph)
  : option (N * list bool) :=
  matula_loop (length G) cf rnd ord [] G (min_degree G) (initial_marks G).

(* a driver's levels: partition indices, last graph, value, marks *)
Record lev := mk_lev { l_maps : list (list nat); l_graph : graph; l_cut : N; l_marks : list bool }.

(* padberg_rinaldi.h:57-60 / 62-65, viecut.h:86-93: contract the sets of u, then updateCut *)
Definition contract_step (ord : nat -> list nat -> list nat) (l : lev) (u : option uf) : option lev :=
  match u with
  | None => None
  | Some u =>
      match from_union_find ord (l_graph l) u with
      | None => None
      | Some (H, mapping) =>
          let '(c, m) := update_cut (l_maps l ++ [mapping]) H (l_cut l) (l_marks l) in
          Some (mk_lev (l_maps l ++ [mapping]) H c m)
      end
  end.

(* padberg_rinaldi.h:53-66 the loop; ord takes the round and the step of the round *)
Fixpoint pr_loop (fuel : nat) (ord : nat -> nat -> nat -> list nat -> list nat) (last : nat) (l : lev) : option lev :=
  if (2 <? length (l_graph l)) && (length (l_graph l) <? last) then
    match fuel with
    | 0 => None
    | S fuel' =>
        match contract_step (ord fuel 0) l (pr_tests34 false (l_graph l) (l_cut l)) with
        | None => None
        | Some l1 =>
            match contract_step (ord fuel 1) l1 (pr_tests12 false (l_graph l1) (l_cut l1)) with
            | None => None
            | Some l2 => pr_loop fuel' ord (length (l_graph l)) l2
            end
        end
    end
  else Some l.

(* padberg_rinaldi.h:42-74 perform_minimum_cut with save_cut *)
Definition padberg_rinaldi (ord : nat -> nat -> nat -> list nat -> list nat) (G : graph) : option (N * list bool) :=
  match pr_loop (S (length G)) ord (S (length G)) (mk_lev [] G (min_degree G) (initial_marks G)) with
  | Some l => Some (l_cut l, l_marks l)
  | None => None
  end.

(* viecut.h:63-84 label propagation, remap_cluster (whose result is the stored partition index),
   findTrivialCuts, contractGraph, updateCut *)
Definition lp_step (coin : nat -> bool) (perm : list nat) (ord : nat -> list nat -> list nat) (l : lev) : option lev :=
  match propagate_labels coin perm (l_graph l) with
  | None => None
  | Some cl =>
      match remap_cluster (l_graph l) cl with
      | None => None
      | Some (mapping0, rev0) =>
          match find_trivial_cuts (l_graph l) mapping0 rev0 (l_cut l) with
          | None => None
          | Some (mapping, rev) =>
              match contract ord (l_graph l) mapping rev with
              | None => None
              | Some H =>
                  let '(c, m) := update_cut (l_maps l ++ [mapping0]) H (l_cut l) (l_marks l) in
                  Some (mk_lev (l_maps l ++ [mapping0]) H c m)
              end
          end
      end
  end.

(* the random parameters of viecut: per round, the coin flips and the shuffled order (for a graph of the
   given size); per round and step, the hash-set orders *)
Record vrand := mk_vrand { v_coin : nat -> nat -> bool; v_perm : nat -> nat -> list nat;
                           v_ord : nat -> nat -> nat -> list nat -> list nat }.

(* viecut.h:72-100 the loop; prev = number of nodes of graphs[size - 2], None in the first round *)
Fixpoint viecut_loop (fuel : nat) (big : nat) (vr : vrand) (prev : option nat) (l : lev) : option lev :=
  let n := length (l_graph l) in
  if (big <? n) && (match prev with None => true | Some p => n <? p end) then
    match fuel with
    | 0 => None
    | S fuel' =>
        match lp_step (v_coin vr fuel) (v_perm vr fuel n) (v_ord vr fuel 0) l with
        | None => None
        | Some l1 =>
            match contract_step (v_ord vr fuel 1) l1 (pr_tests12 false (l_graph l1) (l_cut l1)) with
            | None => None
            | Some l2 =>
                match contract_step (v_ord vr fuel 2) l2 (pr_tests34 false (l_graph l2) (l_cut l2)) with
                | None => None
                | Some l3 => viecut_loop fuel' big vr (Some (length (l_graph l2))) l3
                end
            end
        end
    end
  else Some l.

(* viecut.h:58-120 perform_minimum_cut with save_cut.  NOI marks the nodes of graphs.back(), which is the
   input graph only if the loop was not entered. *)
Definition viecut_with (big : nat) (vr : vrand) (cf : cfg) (rnd : nat -> nat) (ord : nat -> nat -> list nat -> list nat)
    (G : graph) : option (N * list bool) :=
  match viecut_loop (S (S (length G))) big vr None (mk_lev [] G (min_degree G) (initial_marks G)) with
  | None => None
  | Some l =>
      if 1 <? length (l_graph l) then
        match noi cf rnd ord (l_graph l) with
        | None => None
        | Some (c, m) => Some (N.min (l_cut l) c, if length (l_maps l) =? 0 then m else l_marks l)
        end
      else Some (l_cut l, l_marks l)
  end.

(* viecut.h:72 the bound 10000 *)
Definition viecut (vr : vrand) (cf : cfg) (rnd : nat -> nat) (ord : nat -> nat -> list nat -> list nat) (G : graph) :=
  viecut_with (10 * 10 * 10 * 10) vr cf rnd ord G.

(* graph_access.h:338-345, 325-328 source and target of edge number e (the edges in order of their source) *)
Definition flat_edges (G : graph) : list (nat * nat) :=
  flat_map (fun v => map (fun e => (v, fst e)) (nth v G [])) (seq 0 (length G)).

(* ks_minimum_cut.h:98-104 the sampling loop; draws = the values of m_mt(), one per round.  The list
   bounds the number of draws (the loop itself has no bound); no edges: division by zero *)
Fixpoint ks_sample (edges : list (nat * nat)) (need : nat) (u : uf) (draws : list nat) : option uf :=
  match need with
  | 0 => Some u
  | S need' =>
      match draws with
      | [] => None
      | d :: ds =>
          match nth_error edges (d mod length edges) with
          | None => None
          | Some (s, t) =>
              match uf_union u s t with
              | None => None
              | Some (u', true) => ks_sample edges need' u' ds
              | Some (u', false) => ks_sample edges need u' ds
              end
          end
      end
  end.

(* ks_minimum_cut.h:166-183 one edge of n in the heavy edge loop; state: union-find, currentN *)
Definition ks_heavy_edge (G : graph) (n : nat) (st : uf * nat) (e : nat * N) : option (uf * nat) :=
  let '(u, cur) := st in
  let '(t, w) := e in
  if (n <? t) && (2 <? cur) &&
     ((min_degree G <? w)%N || (trunc32 (deg G n) <? w * 2)%N || (trunc32 (deg G t) <? w * 2)%N) then
    match uf_find u n with
    | None => None
    | Some (u1, f) =>
        match uf_find u1 t with
        | None => None
        | Some (u2, s) =>
            if f =? s then Some (u2, cur)
            else match uf_union u2 f s with Some (u3, _) => Some (u3, cur - 1) | None => None end
        end
    end
  else Some st.

(* ks_minimum_cut.h:164-187 the heavy edge loops *)
Fixpoint ks_heavy_edges (G : graph) (n : nat) (st : uf * nat) (es : list (nat * N)) : option (uf * nat) :=
  match es with
  | [] => Some st
  | e :: es' => match ks_heavy_edge G n st e with Some st' => ks_heavy_edges G n st' es' | None => None end
  end.
Fixpoint ks_heavy (G : graph) (st : uf * nat) (ns : list nat) : option (uf * nat) :=
  match ns with
  | [] => Some st
  | n :: ns' => match ks_heavy_edges G n st (nth n G []) with Some st' => ks_heavy G st' ns' | None => None end
  end.

(* ks_minimum_cut.h:89-92 n_reduce for reduction 0.4 *)
Definition ks_reduce (cur : nat) : nat := Nat.min (2 * cur / 5) (cur - 2).

(* random parameters: draws of the generator seeded with the iteration number; the hash-set orders and the
   parameters of NOI for the call with that iteration number at that place (path) of the recursion *)
Record krand := mk_krand { k_draws : nat -> list nat; k_ord : nat -> list bool -> nat -> list nat -> list nat;
                           k_rnd : nat -> list bool -> nat -> nat;
                           k_nord : nat -> list bool -> nat -> nat -> list nat -> list nat }.

(* ks_minimum_cut.h:153-225 recurse: the value; the saved cut is not modelled.  The
   empty path is current = 0.  The fuel
   bounds the recursion depth *)
Fixpoint ks_recurse (fuel : nat) (kr : krand) (cf : cfg) (path : list bool) (G : graph) (iter : nat) : option N :=
  match fuel with
  | 0 => None
  | S fuel' =>
      let n := length G in
      match (if length path =? 0 then Some (uf_init n, n) else ks_heavy G (uf_init n, n) (seq 0 n)) with
      | None => None
      | Some (u, cur) =>
          match ks_sample (flat_edges G) (ks_reduce cur) u (k_draws kr iter) with
          | None => None
          | Some u' =>
              match from_union_find (k_ord kr iter path) G u' with
              | None => None
              | Some (H, _) =>
                  if 50 <? length H then
                    match ks_recurse fuel' kr cf (false :: path) H iter, ks_recurse fuel' kr cf (true :: path) H (iter + N.to_nat 9273) with
                    | Some a, Some b => Some (N.min a b)
                    | _, _ => None
                    end
                  else match noi cf (k_rnd kr iter path) (k_nord kr iter path) H with
                       | Some (c, _) => Some c
                       | None => None
                       end
              end
          end
      end
  end.

(* ks_minimum_cut.h:57-80 perform_minimum_cut: rounds i < log2(n) while mincut > optimal *)
Fixpoint ks_rounds (rounds : nat) (i : nat) (kr : krand) (cf : cfg) (optimal : N) (G : graph) (mincut : N) : option N :=
  match rounds with
  | 0 => Some mincut
  | S r =>
      if (optimal <? mincut)%N then
        match ks_recurse (length G) kr cf [] G i with
        | None => None
        | Some c => ks_rounds r (S i) kr cf optimal G (N.min mincut c)
        end
      else Some mincut
  end.
(* ks_minimum_cut.h:50-87 perform_minimum_cut *)
Definition ks_minimum_cut (kr : krand) (cf : cfg) (optimal : N) (G : graph) : option N :=
  ks_rounds (Nat.log2_up (length G)) 0 kr cf optimal G u64max.
