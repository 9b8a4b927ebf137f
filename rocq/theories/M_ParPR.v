(* M_ParPR.v - model of lib/parallel/coarsening/contraction_tests.h prTests12 and prTests34: the OpenMP
   version.  Threads run concurrently; one step of a thread is one access to the shared arrays contracted
   and finished, or one call of Union.  The iterations of the loop are dealt out to the threads in an
   arbitrary way (schedule(dynamic, 100)).  Interleavings are sequentially consistent.  The calls of Union
   are collected in a log; the concurrent union-find that executes them is M_ParUnionFind. *)
From Verif Require Export M_PRTests.

(* parallel/coarsening/contraction_tests.h:71-109, 127-200: what a thread does next on shared memory *)
Inductive prog :=
  | PDone
  | PSet (v : nat) (p : prog)              (* contracted[v] = true *)
  | PFin (v : nat) (p : prog)              (* finished[v] = true *)
  | PRead (v : nat) (k : bool -> prog)     (* read finished[v] *)
  | PCas (v : nat) (k : bool -> prog)      (* __sync_bool_compare_and_swap(&contracted[v], false, true) *)
  | PUni (a b : nat) (p : prog).           (* uf.Union(a, b) *)

(* parallel/coarsening/contraction_tests.h:63-67, 117-120: the shared state *)
Record qst := mk_qst { q_con : list bool; q_fin : list bool; q_log : list (nat * nat); q_thr : list prog }.

(* parallel/coarsening/contraction_tests.h:71-109, 127-200: one step of thread i *)
Definition p_step (s : qst) (i : nat) : qst :=
  match nth i (q_thr s) PDone with
  | PDone => s
  | PSet v p => mk_qst (upd (q_con s) v true) (q_fin s) (q_log s) (upd (q_thr s) i p)
  | PFin v p => mk_qst (q_con s) (upd (q_fin s) v true) (q_log s) (upd (q_thr s) i p)
  | PRead v k => mk_qst (q_con s) (q_fin s) (q_log s) (upd (q_thr s) i (k (nth v (q_fin s) false)))
  | PCas v k =>
      if nth v (q_con s) false then mk_qst (q_con s) (q_fin s) (q_log s) (upd (q_thr s) i (k false))
      else mk_qst (upd (q_con s) v true) (q_fin s) (q_log s) (upd (q_thr s) i (k true))
  | PUni a b p => mk_qst (q_con s) (q_fin s) (q_log s ++ [(a, b)]) (upd (q_thr s) i p)
  end.

(* parallel/coarsening/contraction_tests.h:70-109, 121-201: an execution: the thread that moves, step by step *)
Definition p_run (s : qst) (sched : list nat) : qst := fold_left p_step sched s.

(* parallel/coarsening/contraction_tests.h:75-107 one edge (t, w) of n in prTests12 *)
Definition par12_edge (all : bool) (limit : N) (G : graph) (n : nat) (e : nat * N) (k : prog) : prog :=
  let '(t, w) := e in
  let nw := trunc32 (deg G n) in
  let tw := trunc32 (deg G t) in
  let rest :=
    if negb all || ((limit <=? nw)%N && (limit <=? tw)%N) then
      if (nw <? 2 * w)%N then PCas n (fun ok => if ok then PSet t (PUni n t k) else k)
      else if (tw <? 2 * w)%N then PCas t (fun ok => if ok then PSet n (PUni n t k) else k)
      else k
    else k in
  if (limit <=? w)%N then PSet n (PSet t (PUni n t rest)) else rest.

(* parallel/coarsening/contraction_tests.h:74-108 the edges of n *)
Fixpoint par12_edges (all : bool) (limit : N) (G : graph) (n : nat) (es : list (nat * N)) (k : prog) : prog :=
  match es with
  | [] => k
  | e :: es' => par12_edge all limit G n e (par12_edges all limit G n es' k)
  end.

(* parallel/coarsening/contraction_tests.h:70-109 the iterations ns given to one thread *)
Fixpoint par12_nodes (all : bool) (limit : N) (G : graph) (ns : list nat) : prog :=
  match ns with
  | [] => PDone
  | n :: ns' => par12_edges all limit G n (nth n G []) (par12_nodes all limit G ns')
  end.

(* parallel/coarsening/contraction_tests.h:60-111 prTests12, work = the iterations of every thread *)
Definition par12_init (all : bool) (limit : N) (G : graph) (work : list (list nat)) : qst :=
  mk_qst (repeat false (length G)) (repeat false (length G)) [] (map (par12_nodes all limit G) work).

(* parallel/coarsening/contraction_tests.h:147-189 the edges of tgt (NodeID deg_n, deg_tgt: 32 bits);
   k continues behind the loop with wgt_sum *)
Fixpoint par_tri (all : bool) (limit : N) (G : graph) (n tgt : nat) (w1 : N) (mk : list (option (nat * nat)))
  (sum : N) (es : list (nat * N)) (k : N -> prog) : prog :=
  match es with
  | [] => k sum
  | (t2, w2) :: es' =>
      match nth t2 mk None with
      | None => par_tri all limit G n tgt w1 mk sum es' k
      | Some (m, e) =>
          if negb (m =? n) then par_tri all limit G n tgt w1 mk sum es' k
          else
            let w3 := snd (nth e (nth n G []) (0, 0%N)) in
            let dn := trunc32 (deg G n) in
            let dt := trunc32 (deg G tgt) in
            let sum' := (sum + N.min w2 w3)%N in
            let one := negb all && (dn <=? 2 * (w1 + w3))%N && (dt <=? 2 * (w1 + w2))%N in
            let two := all && (dn <? 2 * (w1 + w3))%N && (dt <? 2 * (w1 + w2))%N && (limit <=? dn)%N && (limit <=? dt)%N in
            if one || two then
              PCas n (fun ok =>
                if ok then PCas tgt (fun ok' =>
                             if ok' then PUni n tgt (k sum') else par_tri all limit G n tgt w1 mk sum' es' k)
                else par_tri all limit G n tgt w1 mk sum' es' k)
            else par_tri all limit G n tgt w1 mk sum' es' k
      end
  end.

(* parallel/coarsening/contraction_tests.h:141-199 the edges of n; marked is private to the thread *)
Fixpoint par34_edges (all : bool) (limit : N) (G : graph) (n : nat) (mk : list (option (nat * nat))) (es : list (nat * N))
  (k : list (option (nat * nat)) -> prog) : prog :=
  match es with
  | [] => k mk
  | (tgt, w1) :: es' =>
      PFin tgt
        (if n <? tgt then
           par_tri all limit G n tgt w1 mk w1 (nth tgt G []) (fun sum =>
             let rest := par34_edges all limit G n (upd mk tgt None) es' k in
             if (limit <=? sum)%N then PSet n (PSet tgt (PUni n tgt rest)) else rest)
         else par34_edges all limit G n mk es' k)
  end.

(* parallel/coarsening/contraction_tests.h:126-200 the iterations ns given to one thread *)
Fixpoint par34_nodes (all : bool) (limit : N) (G : graph) (mk : list (option (nat * nat))) (ns : list nat) : prog :=
  match ns with
  | [] => PDone
  | n :: ns' =>
      PRead n (fun f =>
        if f then par34_nodes all limit G mk ns'
        else PFin n (par34_edges all limit G n (mark_edges n 0 (nth n G []) mk) (nth n G [])
                       (fun mk' => par34_nodes all limit G mk' ns')))
  end.

(* parallel/coarsening/contraction_tests.h:114-203 prTests34, work = the iterations of every thread *)
Definition par34_init (all : bool) (limit : N) (G : graph) (work : list (list nat)) : qst :=
  mk_qst (repeat false (length G)) (repeat false (length G)) []
    (map (par34_nodes all limit G (repeat None (length G))) work).
