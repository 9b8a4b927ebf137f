(* M_ParCapforest.v - model of exact_parallel_minimum_cut.h:168-240 parallel_modified_capforest
   (lib/parallel/algorithm).  Each worker thread is a small-step machine with one step per access to
   the shared array `visited`; everything else it touches is its own.  The calls uf.Union are
   recorded in the trace (the concurrent union-find itself is M_ParUnionFind.v).  A step is given the
   value that the read of `visited` returns; [par_run] below supplies it from a shared memory with
   sequentially consistent accesses.
   Simplified: the unused `times`, `elements`, timers; `mincut + 1` (line 184) does not wrap. *)
From Verif Require Export SpecCut M_Noi.

(* exact_parallel_minimum_cut.h:197-237 program points of one thread *)
Inductive cpc :=
| CPop                                             (* 197-203: pq.empty, deleteMax, local writes *)
| CCheck (v : nat)                                 (* 204: read visited[current_node] *)
| CWrite (v : nat)                                 (* 207: visited[current_node] = true *)
| CEdges (v : nat) (es : list (nat * N))           (* 211-219: edges es of v still to do *)
| CRead1 (v t : nat) (w : N) (es : list (nat * N)) (* 221: first read of visited[tgt] *)
| CRead2 (v t : nat) (k : N) (es : list (nat * N)) (* 226: second read; k = new_rv *)
| CDone.

(* exact_parallel_minimum_cut.h:184-187 the variables of one thread *)
Record cth := mk_cth {
  c_q : pq; c_black : list bool; c_r : list N; c_loc : list bool; c_pc : cpc }.

(* exact_parallel_minimum_cut.h:204, 207, 217, 221, 226 what a step does that others can observe *)
Inductive cev :=
| EVCheck (v : nat) (b : bool) | EVWrite (v : nat) | EVUnion (x y : nat)
| EVRead1 (t : nat) (b : bool) | EVRead2 (t : nat) (b : bool).

(* exact_parallel_minimum_cut.h:184-192 *)
Definition cth_init (G : graph) (mincut : N) (start : nat) : option cth :=
  let n := length G in
  match pq_step (PBucket true (bq_init n (N.to_nat (mincut + 1)))) (QInsert start 0) with
  | Some (q, _) => Some (mk_cth q (repeat false n) (repeat 0%N n) (repeat false n) CPop)
  | None => None
  end.

(* the store r_v[tgt] = new_rv, exact_parallel_minimum_cut.h:186, 225: NodeID is 32 bits wide *)
Definition rv32 (k : N) : N := (k mod 4294967296)%N.

(* exact_parallel_minimum_cut.h:227-231 *)
Definition par_push (q : pq) (t : nat) (k : N) : option pq :=
  match pq_step q (QContains t) with
  | Some (q1, RBool true) => option_map fst (pq_step q1 (QIncreaseKey t k))
  | Some (q1, RBool false) => option_map fst (pq_step q1 (QInsert t k))
  | _ => None
  end.

(* exact_parallel_minimum_cut.h:197-237 one step of a thread; [dis] = disable_blacklist, [b] = the
   value of visited[] if the step reads it.  None = access out of range *)
Definition cstep (dis : bool) (G : graph) (mincut : N) (s : cth) (b : bool) : option (cth * list cev) :=
  let at_pc p := mk_cth (c_q s) (c_black s) (c_r s) (c_loc s) p in
  match c_pc s with
  | CDone => Some (s, [])
  | CPop =>
      match pq_step (c_q s) QEmpty with
      | Some (q1, RBool true) => Some (mk_cth q1 (c_black s) (c_r s) (c_loc s) CDone, [])
      | Some (q1, RBool false) =>
          match pq_step q1 QDeleteMax with
          | Some (q2, RNode v) =>
              let loc' := upd (c_loc s) v true in
              if v <? length G then
                if dis then Some (mk_cth q2 (c_black s) (c_r s) loc' (CEdges v (nth v G [])), [])
                else Some (mk_cth q2 (upd (c_black s) v true) (c_r s) loc' (CCheck v), [])
              else None
          | _ => None
          end
      | _ => None
      end
  | CCheck v => Some (at_pc (if b then CPop else CWrite v), [EVCheck v b])
  | CWrite v => Some (at_pc (CEdges v (nth v G [])), [EVWrite v])
  | CEdges v [] => Some (at_pc CPop, [])
  | CEdges v ((t, w) :: es) =>
      if t <? length G then
        let rt := nth t (c_r s) 0%N in
        if negb (nth t (c_loc s) false) && (rt <? mincut)%N then
          Some (at_pc (CRead1 v t w es),
                if (mincut <=? rt + w)%N && negb (nth t (c_black s) false) then [EVUnion v t] else [])
        else Some (at_pc (CEdges v es), [])
      else None
  | CRead1 v t w es =>
      if b then Some (at_pc (CEdges v es), [EVRead1 t b])
      else let k := N.min (nth t (c_r s) 0%N + w) mincut in
           Some (mk_cth (c_q s) (c_black s) (upd (c_r s) t (rv32 k)) (c_loc s) (CRead2 v t k es), [EVRead1 t b])
  | CRead2 v t k es =>
      if negb b && negb (nth t (c_loc s) false) then
        match par_push (c_q s) t k with
        | Some q' => Some (mk_cth q' (c_black s) (c_r s) (c_loc s) (CEdges v es), [EVRead2 t b])
        | None => None
        end
      else Some (at_pc (CEdges v es), [EVRead2 t b])
  end.

(* the vertex whose visited[] entry the next step of the thread reads (204, 221, 226); 0 if none *)
Definition creads (p : cpc) : nat :=
  match p with CCheck v => v | CRead1 _ t _ _ | CRead2 _ t _ _ => t | _ => 0 end.

(* the effect of a step on visited[], exact_parallel_minimum_cut.h:207 *)
Definition cwrites (vis : list bool) (evs : list cev) : list bool :=
  fold_left (fun m e => match e with EVWrite v => upd m v true | _ => m end) evs vis.

(* the shared memory (line 179), the threads and the trace so far; events carry the thread number *)
Record par := mk_par { p_vis : list bool; p_th : list cth; p_tr : list (nat * cev) }.

(* exact_parallel_minimum_cut.h:179-192; starts = start_nodes, one per thread *)
Fixpoint all_init (G : graph) (mincut : N) (starts : list nat) : option (list cth) :=
  match starts with
  | [] => Some []
  | v :: vs => match cth_init G mincut v, all_init G mincut vs with
               | Some s, Some l => Some (s :: l)
               | _, _ => None
               end
  end.

(* one step of thread i on the shared memory, exact_parallel_minimum_cut.h:182-237; a thread number
   out of range does nothing *)
Definition par_step (dis : bool) (G : graph) (mincut : N) (p : par) (i : nat) : option par :=
  match nth_error (p_th p) i with
  | None => Some p
  | Some s =>
      match cstep dis G mincut s (nth (creads (c_pc s)) (p_vis p) false) with
      | Some (s', evs) =>
          Some (mk_par (cwrites (p_vis p) evs) (upd (p_th p) i s') (p_tr p ++ map (pair i) evs))
      | None => None
      end
  end.

(* an execution: the thread numbers in the order in which they take steps *)
Fixpoint par_steps (dis : bool) (G : graph) (mincut : N) (p : par) (sched : list nat) : option par :=
  match sched with
  | [] => Some p
  | i :: sched' => match par_step dis G mincut p i with
                   | Some p' => par_steps dis G mincut p' sched'
                   | None => None
                   end
  end.

(* exact_parallel_minimum_cut.h:168-240 under the given schedule *)
Definition par_run (dis : bool) (G : graph) (mincut : N) (starts : list nat) (sched : list nat) : option par :=
  match all_init G mincut starts with
  | Some l => par_steps dis G mincut (mk_par (repeat false (length G)) l []) sched
  | None => None
  end.

(* the same machine on a memory that may return any value to a read (a racy or weakly ordered
   memory): each step of the schedule comes with the value read *)
Definition any_step (dis : bool) (G : graph) (mincut : N) (p : par) (i : nat) (b : bool) : option par :=
  match nth_error (p_th p) i with
  | None => Some p
  | Some s =>
      match cstep dis G mincut s b with
      | Some (s', evs) => Some (mk_par (p_vis p) (upd (p_th p) i s') (p_tr p ++ map (pair i) evs))
      | None => None
      end
  end.

(* exact_parallel_minimum_cut.h:197-237, all steps of the schedule with the values read *)
Fixpoint any_steps (dis : bool) (G : graph) (mincut : N) (p : par) (sched : list (nat * bool)) : option par :=
  match sched with
  | [] => Some p
  | (i, b) :: sched' => match any_step dis G mincut p i b with
                        | Some p' => any_steps dis G mincut p' sched'
                        | None => None
                        end
  end.

(* exact_parallel_minimum_cut.h:168-240 on such a memory *)
Definition any_run (dis : bool) (G : graph) (mincut : N) (starts : list nat) (sched : list (nat * bool)) : option par :=
  match all_init G mincut starts with
  | Some l => any_steps dis G mincut (mk_par [] l []) sched
  | None => None
  end.

(* the pairs passed to uf.Union (line 217) *)
Definition unions_of (p : par) : list (nat * nat) :=
  flat_map (fun e => match snd e with EVUnion x y => [(x, y)] | _ => [] end) (p_tr p).

(* all threads have left the loop of line 197 *)
Definition finished (p : par) : Prop := forall s, In s (p_th p) -> c_pc s = CDone.
