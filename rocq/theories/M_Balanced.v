(* M_Balanced.v - model of balanced_cut_dfs.h (class balanced_cut_dfs) and most_balanced_minimum_cut.h (findCutFromCactus), on
   the mutable graphs of M_Mutable: G is the original graph, C the cactus.

   Parameters: cond, the option find_lowest_conductance; start, the random start vertex.
   Simplified: save_cut is set; logging and writing the cut to a file are left out; NodeInCut of the original graph is returned
   as a list.  None: undefined behaviour, a subtraction of unsigned numbers below zero, or out of fuel. *)
From Verif Require Export M_Mutable.

(* definitions.h:50-55 DFSVertexStatus *)
Inductive vstat := Undiscovered | Active | OnCycle | Finished.

(* balanced_cut_dfs.h:219-227 best_in_cycle, best_n, best_e, best_n2, best_e2, best_weight *)
Record best := mk_best { b_cyc : bool; b_n : nat; b_e : nat; b_n2 : nat; b_e2 : nat; b_w : N }.

(* balanced_cut_dfs.h:213-216, 219-227 the state; None in s_sub: UNDEFINED_EDGE, None in s_par: UNDEFINED_NODE *)
Record dst := mk_dst { s_stat : list vstat; s_sub : list (option N); s_par : list (option nat); s_out : list (list nat); s_best : best }.

(* balanced_cut_dfs.h:33-40, 219-227 the constructor *)
Definition dst0 (n : nat) : dst :=
  mk_dst (repeat Undiscovered n) (repeat None n) (repeat None n) (repeat [] n) (mk_best false 0 0 0 0 0%N).

(* unsigned subtraction, defined when the result is not negative *)
Definition wsub (a b : N) : option N := if (b <=? a)%N then Some (a - b)%N else None.

Section Balanced.
Context (cond : bool) (G C : mg) (mincut : N) (start : nat).

(* balanced_cut_dfs.h:117-127 findVertexWeight *)
Definition vertex_weight (n : nat) : N :=
  if cond then sumN (fun v => nth v (m_deg G) 0%N) (nth n (m_cont C) []) else N.of_nat (length (nth n (m_cont C) [])).

(* balanced_cut_dfs.h:129-135 totalWeight; mutable_graph.h:288-298 getOriginalNodes, sumOfEdgeWeights *)
Definition total_weight : N := if cond then sumN (fun d => d) (m_deg G) else N.of_nat (m_orig C).

(* balanced_cut_dfs.h:137-139 lighterBlock *)
Definition lighter (w : N) : option N := option_map (N.min w) (wsub total_weight w).

(* balanced_cut_dfs.h:146-151 the vertices of the cycle above v up to start and their weights.  The weight of start is the one
   written in lines 153-155; subtree_weight[start] is not set yet when line 148 reads it *)
Fixpoint climb_cycle (fuel : nat) (st : dst) (top v : nat) : option (list (nat * N)) :=
  if v =? top then Some []
  else match fuel with
       | 0 => None
       | S fuel' =>
           match nth v (s_par st) None, nth v (s_sub st) None with
           | Some p, Some wv =>
               match (if p =? top then wsub total_weight wv
                      else match nth p (s_sub st) None with Some wp => wsub wp wv | None => None end),
                     climb_cycle fuel' st top p with
               | Some w, Some rest => Some ((p, w) :: rest)
               | _, _ => None
               end
           | _, _ => None
           end
       end.

(* balanced_cut_dfs.h:170-176, 180-186 the first edge of v to t; no edge: the old value *)
Fixpoint edge_index (row : list half) (t e old : nat) : nat :=
  match row with [] => old | (x, _, _) :: row' => if x =? t then e else edge_index row' t (S e) old end.

(* balanced_cut_dfs.h:163-197 the two pointers; cyc: cycle_vertices and cycle_weight *)
Fixpoint slide (fuel : nat) (cyc : list (nat * N)) (back front : nat) (inw : N) (b : best) : option best :=
  let len := length cyc in
  let vert i := fst (nth (i mod len) cyc (0, 0%N)) in
  let wgt i := snd (nth (i mod len) cyc (0, 0%N)) in
  if 2 * len <? back then Some b
  else match fuel with
       | 0 => None
       | S fuel' =>
           match lighter inw with
           | None => None
           | Some l =>
               let b' := if (b_w b <=? l)%N
                         then mk_best true (vert (front - 1)) (edge_index (nth (vert (front - 1)) (m_rows C) []) (vert front) 0 (b_e b))
                                      (vert (back - 1)) (edge_index (nth (vert (back - 1)) (m_rows C) []) (vert back) 0 (b_e2 b)) l
                         else b in
               if (total_weight <=? inw * 2)%N
               then match wsub inw (wgt back) with None => None | Some w => slide fuel' cyc (S back) front w b' end
               else slide fuel' cyc back (S front) (inw + wgt front)%N b'
           end
       end.

(* balanced_cut_dfs.h:141-198 investigateCycle; t = top: cycle_vertices[size - 2] is out of range *)
Definition investigate (st : dst) (t top : nat) : option dst :=
  if t =? top then None
  else match nth t (s_sub st) None, climb_cycle (m_n C) st top t with
       | Some wt, Some rest =>
           let cyc := (t, wt) :: rest in
           match slide (4 * length cyc + 4) cyc (length cyc) 1 wt (s_best st) with
           | None => None
           | Some b => Some (mk_dst (s_stat st) (s_sub st) (s_par st) (s_out st) b)
           end
       | _, _ => None
       end.

(* balanced_cut_dfs.h:200-204 checkForCycles *)
Fixpoint check_cycles (st : dst) (top : nat) (ts : list nat) : option dst :=
  match ts with
  | [] => Some st
  | t :: ts' => match investigate st t top with None => None | Some st' => check_cycles st' top ts' end
  end.

(* status[n] = x, as in balanced_cut_dfs.h:70 *)
Definition set_stat (st : dst) (n : nat) (x : vstat) : dst :=
  mk_dst (upd (s_stat st) n x) (s_sub st) (s_par st) (s_out st) (s_best st).
(* parent[t] = n, balanced_cut_dfs.h:84 *)
Definition set_par (st : dst) (t n : nat) : dst :=
  mk_dst (s_stat st) (s_sub st) (upd (s_par st) t (Some n)) (s_out st) (s_best st).
(* balanced_cut_dfs.h:100-101 *)
Definition mark_cycle (st : dst) (t n : nat) : dst :=
  mk_dst (upd (s_stat st) t OnCycle) (s_sub st) (s_par st) (upd (s_out st) t (nth t (s_out st) [] ++ [n])) (s_best st).
(* balanced_cut_dfs.h:74-75, 112-114 subtree_weight[n] = w, status[n] = FINISHED *)
Definition finish (st : dst) (n : nat) (w : N) : dst :=
  mk_dst (upd (s_stat st) n Finished) (upd (s_sub st) n (Some w)) (s_par st) (s_out st) (s_best st).

(* balanced_cut_dfs.h:86-92 the cut of the tree edge e from n, with lighter side l *)
Definition tree_edge (st : dst) (n e : nat) (w l : N) : dst :=
  if ((b_w (s_best st) <? l) && (w =? mincut))%N
  then mk_dst (s_stat st) (s_sub st) (s_par st) (s_out st)
              (mk_best false n e (b_n2 (s_best st)) (b_e2 (s_best st)) l)
  else st.

(* balanced_cut_dfs.h:79-107 the edges of n, numbered from e; cw: children_weight; visit: the recursive call *)
Fixpoint visit_edges (visit : dst -> nat -> option dst) (n : nat) (row : list half) (e : nat) (st : dst) (cw : N) : option (dst * N) :=
  match row with
  | [] => Some (st, cw)
  | (t, w, _) :: row' =>
      match nth_error (s_stat st) t with
      | None => None
      | Some Undiscovered =>
          match visit (set_par st t n) t with
          | None => None
          | Some st' =>
              match nth t (s_sub st') None with
              | None => None
              | Some wt =>
                  match lighter wt with
                  | None => None
                  | Some l => visit_edges visit n row' (S e) (tree_edge st' n e w l) (cw + wt)%N
                  end
              end
          end
      | Some Finished => visit_edges visit n row' (S e) st cw
      | Some _ =>
          visit_edges visit n row' (S e)
            (match nth n (s_par st) None with Some p => if p =? t then st else mark_cycle st t n | None => mark_cycle st t n end) cw
      end
  end.

(* balanced_cut_dfs.h:69-115 processVertex *)
Fixpoint process (fuel : nat) (st : dst) (n : nat) : option dst :=
  match fuel with
  | 0 => None
  | S fuel' =>
      match nth_error (m_rows C) n with
      | None => None
      | Some row =>
          let st := set_stat st n Active in
          if (length row =? 1) && negb (n =? start) then Some (finish st n (vertex_weight n))
          else
            match visit_edges (process fuel') n row 0 st 0%N with
            | None => None
            | Some (st1, cw) =>
                match (match nth n (s_stat st1) Undiscovered with
                       | OnCycle => check_cycles st1 n (nth n (s_out st1) [])
                       | _ => Some st1
                       end) with
                | None => None
                | Some st2 => Some (finish st2 n (cw + vertex_weight n)%N)
                end
            end
      end
  end.

(* balanced_cut_dfs.h:42-66 runDFS; the result: n1, e1, n2, e2, in a cycle, and best_weight of the log line *)
Definition run_dfs : option (nat * nat * nat * nat * bool * N) :=
  match process (m_n C) (dst0 (m_n C)) start with
  | None => None
  | Some st =>
      let b := s_best st in
      if b_cyc b then
        match slot (m_rows C) (b_n2 b) (b_e2 b) with
        | Some (t, _, r) => Some (b_n b, b_e b, t, r, true, b_w b)
        | None => None
        end
      else Some (b_n b, b_e b, b_n b, b_e b, false, b_w b)
  end.

(* most_balanced_minimum_cut.h:81-87 the edges of one vertex *)
Fixpoint bfs_row (row : list half) (q : list nat) (chk : list bool) : list nat * list bool :=
  match row with
  | [] => (q, chk)
  | (t, _, _) :: row' => if nth t chk false then bfs_row row' q chk else bfs_row row' (q ++ [t]) (upd chk t true)
  end.

(* most_balanced_minimum_cut.h:75-88 the queue; inc: NodeInCut *)
Fixpoint bfs_cut (fuel : nat) (q : list nat) (chk inc : list bool) : option (list bool) :=
  match q with
  | [] => Some inc
  | x :: q' =>
      match fuel with
      | 0 => None
      | S fuel' =>
          let inc' := fold_left (fun i v => upd i v true) (nth x (m_cont C) []) inc in
          let '(q2, chk2) := bfs_row (nth x (m_rows C) []) q' chk in
          bfs_cut fuel' q2 chk2 inc'
      end
  end.

(* most_balanced_minimum_cut.h:90-98 the edges between the sides *)
Definition cut_edges (inc : list bool) : list (nat * nat) :=
  flat_map (fun v =>
    map (fun p => (v, fst p))
        (filter (fun p => negb (Bool.eqb (nth v inc false) (nth (fst (fst (snd p))) inc false)))
                (combine (seq 0 (length (nth v (m_rows G) []))) (nth v (m_rows G) [])))) (seq 0 (m_n G)).

(* most_balanced_minimum_cut.h:46-98 the cut from the two edges found: NodeInCut and the edges *)
Definition mark_cut (n1 e1 n2 e2 : nat) : option (list bool * list (nat * nat)) :=
  match slot (m_rows C) n1 e1, slot (m_rows C) n2 e2 with
  | Some (r1, _, _), Some (r2, _, _) =>
      let chk := upd (repeat false (m_n C)) n1 true in
      let '(q, chk) := if n1 =? n2 then ([n1], chk) else ([n1; n2], upd chk n2 true) in
      match bfs_cut (m_n C) q (upd (upd chk r1 true) r2 true) (repeat false (m_n G)) with
      | Some inc => Some (inc, cut_edges inc)
      | None => None
      end
  | _, _ => None
  end.

(* most_balanced_minimum_cut.h:28-110 findCutFromCactus; set_in_cut: set_node_in_cut, or an output file is given; the result:
   NodeInCut when it is set, and the edges *)
Definition find_cut (set_in_cut : bool) : option (option (list bool) * list (nat * nat)) :=
  if (mincut =? 0)%N then Some (None, [])
  else match run_dfs with
       | None => None
       | Some (n1, e1, n2, e2, _, _) =>
           if set_in_cut then
             match mark_cut n1 e1 n2 e2 with None => None | Some (inc, es) => Some (Some inc, es) end
           else Some (None, [])
       end.
End Balanced.
