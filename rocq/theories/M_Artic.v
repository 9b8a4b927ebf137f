(* M_Artic.v - model of lib/algorithms/misc/find_articulation_points.h.  The vectors indexed by vertices are functions: all
   indices are vertices of the graph, since targets of edges are.  UNDEFINED_NODE is None in parent and 2^32-1 in discovered and
   lowest.  Lists of vertices at the end of which the code works (stack, path) have that end at the head.  None: out of
   fuel, or parent[UNDEFINED_NODE] is read. *)
From Verif Require Export M_Kernel.

Definition fset {A} (f : nat -> A) (i : nat) (x : A) : nat -> A := fun j => if j =? i then x else f j.

(* find_articulation_points.h:216-224 the members *)
Record apst := mk_ap { a_vis : nat -> bool; a_disc : nat -> N; a_par : nat -> option nat; a_low : nat -> N; a_stack : list nat; a_aps : list nat; a_step : N }.

(* find_articulation_points.h:27-33 the constructor *)
Definition ap_init : apst := mk_ap (fun _ => false) (fun _ => 4294967295%N) (fun _ => None) (fun _ => 4294967295%N) [] [] 0.

(* edges_of / getEdgeTarget *)
Definition ap_nbrs (R : list (list half)) (v : nat) : list nat := map (fun h : half => fst (fst h)) (nth v R []).

Definition is_par (p : option nat) (v : nat) : bool := match p with Some x => x =? v | None => false end.

(* find_articulation_points.h:167-179 one edge (b, t) when b is left *)
Definition ap_leave_edge (b : nat) (s : apst) (t : nat) : apst :=
  if is_par (a_par s t) b then
    let low := fset (a_low s) b (N.min (a_low s b) (a_low s t)) in
    mk_ap (a_vis s) (a_disc s) (a_par s) low (a_stack s)
      (if negb (is_par (a_par s b) b) && (a_disc s b <=? low t)%N then a_aps s ++ [b] else a_aps s) (a_step s)
  else if negb (is_par (a_par s b) t) then
    mk_ap (a_vis s) (a_disc s) (a_par s) (fset (a_low s) b (N.min (a_low s b) (a_disc s t))) (a_stack s) (a_aps s) (a_step s)
  else s.

(* find_articulation_points.h:162-181 backtrackTo *)
Fixpoint ap_backtrack (R : list (list half)) (s : apst) (path : list nat) (n : nat) : apst * list nat :=
  match path with
  | [] => (s, [])
  | b :: path' =>
      if is_par (a_par s n) b then (s, path)
      else ap_backtrack R (fold_left (ap_leave_edge b) (ap_nbrs R b) s) path' n
  end.

(* find_articulation_points.h:202-208 one edge (n, t) when n is entered *)
Definition ap_push (n : nat) (s : apst) (t : nat) : apst :=
  if a_vis s t then s
  else mk_ap (a_vis s) (a_disc s) (fset (a_par s) t (Some n)) (a_low s) (t :: a_stack s) (a_aps s) (a_step s).

(* find_articulation_points.h:195-208 entering n *)
Definition ap_enter (R : list (list half)) (s : apst) (n : nat) : apst :=
  let k := (a_step s + 1)%N in
  fold_left (ap_push n) (ap_nbrs R n)
    (mk_ap (fset (a_vis s) n true) (fset (a_disc s) n k) (a_par s) (fset (a_low s) n k) (a_stack s) (a_aps s) k).

(* find_articulation_points.h:187-209 the loop over the stack *)
Fixpoint ap_loop (fuel : nat) (R : list (list half)) (s : apst) (path : list nat) : option (apst * list nat) :=
  match fuel with
  | 0 => None
  | S f =>
      match a_stack s with
      | [] => Some (s, path)
      | n :: st =>
          let s := mk_ap (a_vis s) (a_disc s) (a_par s) (a_low s) st (a_aps s) (a_step s) in
          if a_vis s n then ap_loop f R s path
          else let '(s, path) := ap_backtrack R s path n in ap_loop f R (ap_enter R s n) (n :: path)
      end
  end.

(* find_articulation_points.h:183-214 findAllArticulationPointsInCC; the fuel is enough for every push *)
Definition ap_fuel (R : list (list half)) : nat := 2 + N.to_nat (bsum (length R) (fun v => N.of_nat (length (ap_nbrs R v)))).
Definition ap_cc (R : list (list half)) (s : apst) (vtx : nat) : option apst :=
  match ap_loop (ap_fuel R) R (mk_ap (a_vis s) (a_disc s) (fset (a_par s) vtx (Some vtx)) (a_low s) (vtx :: a_stack s) (a_aps s) (a_step s)) [] with
  | Some (s, path) => Some (fst (ap_backtrack R s path vtx))
  | None => None
  end.

(* find_articulation_points.h:35-42 findAllArticulationPoints *)
Fixpoint ap_all (R : list (list half)) (vs : list nat) (s : apst) : option apst :=
  match vs with
  | [] => Some s
  | v :: vs' => if a_vis s v then ap_all R vs' s else match ap_cc R s v with Some s' => ap_all R vs' s' | None => None end
  end.
Definition find_all_aps (R : list (list half)) : option apst := ap_all R (seq 0 (length R)) ap_init.

(* find_articulation_points.h:53-70, 87-104 the climb: on_right and the vertex at which it ends *)
Fixpoint ap_climb (fuel : nat) (s : apst) (n t : nat) : option (bool * nat) :=
  match fuel with
  | 0 => None
  | S f =>
      if t =? n then Some (true, t)
      else if is_par (a_par s t) n then Some ((a_disc s n <=? a_low s t)%N, t)
      else if is_par (a_par s t) t then Some (false, t)
      else match a_par s t with Some p => ap_climb f s n p | None => None end
  end.

(* find_articulation_points.h:49-72 the number of terminals on the right *)
Fixpoint ap_sum (fuel : nat) (s : apst) (n : nat) (ts : list nat) : option nat :=
  match ts with
  | [] => Some 0
  | t :: ts' =>
      match ap_climb fuel s n t, ap_sum fuel s n ts' with
      | Some (r, _), Some k => Some ((if r then 1 else 0) + k)
      | _, _ => None
      end
  end.

(* find_articulation_points.h:83-111 the edges of n; q is the queue, its front at the head *)
Fixpoint ap_first (fuel : nat) (s : apst) (n : nat) (invert : bool) (es : list nat) (c : nat -> bool) (q : list nat) (u : uf) : option ((nat -> bool) * list nat * uf) :=
  match es with
  | [] => Some (c, q, u)
  | t :: es' =>
      match ap_climb fuel s n t with
      | Some (r, t) =>
          if negb (Bool.eqb r invert) then
            match uf_union u n t with Some (u', _) => ap_first fuel s n invert es' (fset c t true) (q ++ [t]) u' | None => None end
          else ap_first fuel s n invert es' c q u
      | None => None
      end
  end.

(* find_articulation_points.h:116-123 the edges of v *)
Fixpoint ap_bfs_edges (v : nat) (es : list nat) (c : nat -> bool) (q : list nat) (u : uf) : option ((nat -> bool) * list nat * uf) :=
  match es with
  | [] => Some (c, q, u)
  | t :: es' =>
      if c t then ap_bfs_edges v es' c q u
      else match uf_union u v t with Some (u', _) => ap_bfs_edges v es' (fset c t true) (q ++ [t]) u' | None => None end
  end.

(* find_articulation_points.h:113-124 *)
Fixpoint ap_bfs (fuel : nat) (R : list (list half)) (c : nat -> bool) (q : list nat) (u : uf) : option ((nat -> bool) * uf) :=
  match fuel with
  | 0 => None
  | S f =>
      match q with
      | [] => Some (c, u)
      | v :: q' => match ap_bfs_edges v (ap_nbrs R v) c q' u with Some (c', q'', u') => ap_bfs f R c' q'' u' | None => None end
      end
  end.

(* exit(1), or the value of terminalsOnBothSides *)
Inductive ap_result := ap_exit | ap_uf (u : option uf).

(* find_articulation_points.h:48-152 the articulation points one by one *)
Fixpoint ap_sides (R : list (list half)) (s : apst) (ts : list nat) (aps : list nat) (u : uf) (ret : bool) : option ap_result :=
  match aps with
  | [] => Some (ap_uf (if ret then Some u else None))
  | n :: aps' =>
      match ap_sum (S (length R)) s n ts with
      | None => None
      | Some sum =>
          if (sum =? 0) || (sum =? length ts) then
            match ap_first (S (length R)) s n (sum =? length ts) (ap_nbrs R n) (fset (fun _ => false) n true) [] u with
            | None => None
            | Some (c, q, u) =>
                match ap_bfs (S (length (ap_nbrs R n) + length R)) R c q u with
                | None => None
                | Some (c, u) =>
                    if existsb (fun t => c t && negb (t =? n)) ts then Some ap_exit
                    else ap_sides R s ts aps' u true
                end
            end
          else ap_sides R s ts aps' u ret
      end
  end.

(* find_articulation_points.h:44-159 terminalsOnBothSides *)
Definition terminals_on_both_sides (R : list (list half)) (s : apst) (ts : list nat) : option ap_result :=
  ap_sides R s ts (a_aps s) (uf_init (length R)) false.

(* kernelization_criteria.h:89-96: the partition handed to contractIfImproved; without articulation points or without a
   value nothing is contracted (n singletons).  None also for exit(1). *)
Definition ap_rule (G : mg) (ts : list nat) : option uf :=
  match find_all_aps (m_rows G) with
  | None => None
  | Some s =>
      if 0 <? length (a_aps s) then
        match terminals_on_both_sides (m_rows G) s ts with
        | Some (ap_uf (Some u)) => Some u
        | Some (ap_uf None) => Some (uf_init (m_n G))
        | _ => None
        end
      else Some (uf_init (m_n G))
  end.
