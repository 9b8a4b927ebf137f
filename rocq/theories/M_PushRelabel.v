(* M_PushRelabel.v - model of lib/algorithms/flow/push_relabel.h for limited = false and
   parallel_flows = true (the flow lives in the solver's own edge_flow).  Flows and excesses are
   unbounded integers.  The heap m_Q is a list of which any element may be taken next (deleteMax
   takes one particular element), and the moments of the global relabelings (m_work against
   GLOBAL_UPDATE_FRQ) are arbitrary.  Statistics and timers are left out. *)
From Verif Require Export M_Mutable.
Require Export ZArith.

(* push_relabel.h:460-475 the members: edge_flow, m_excess, m_distance, m_active, m_count, m_Q *)
Record prs := mk_prs { p_fl : list (list Z); p_ex : list Z; p_ds : list nat; p_ac : list bool;
                       p_ct : list Z; p_q : list nat }.

(* push_relabel.h:320-326 getEdgeFlow *)
Definition eflow (fl : list (list Z)) (v e : nat) : Z := nth e (nth v fl []) 0%Z.

(* push_relabel.h:312-318 addEdgeFlow *)
Definition add_flow (fl : list (list Z)) (v e : nat) (x : Z) : list (list Z) :=
  upd fl v (upd (nth v fl []) e (eflow fl v e + x)%Z).

(* push_relabel.h:126-127, 234, 274-275 getEdgeWeight(v, e) - getEdgeFlow(v, e) *)
Definition resid (R : list (list half)) (fl : list (list Z)) (v e : nat) : Z :=
  match slot R v e with Some (_, w, _) => (Z.of_N w - eflow fl v e)%Z | None => 0%Z end.

(* push_relabel.h:105-106, 128, 130, 217, 219, 230, 242 m_count[i] += x *)
Definition bump (ct : list Z) (i : nat) (x : Z) : list Z := upd ct i (nth i ct 0%Z + x)%Z.

(* push_relabel.h:176-189 enqueue *)
Definition enqueue (t : nat) (s : prs) : prs :=
  if nth t (p_ac s) false then s
  else if (0 <? nth t (p_ex s) 0)%Z
       then mk_prs (p_fl s) (p_ex s) (p_ds s) (upd (p_ac s) t true) (p_ct s) (p_q s ++ [t])
       else s.

(* push_relabel.h:145-173 push; the edge index comes from a loop over edges_of, so the half edge exists *)
Definition push_edge (R : list (list half)) (v e sd : nat) (s : prs) : prs :=
  match slot R v e with
  | None => s
  | Some (t, w, r) =>
      if sd <=? nth t (p_ds s) 0 then s
      else
        let amount := Z.min (Z.of_N w - eflow (p_fl s) v e) (nth v (p_ex s) 0%Z) in
        if (amount =? 0)%Z then s
        else
          let fl := add_flow (add_flow (p_fl s) v e amount) t r (- amount)%Z in
          let ex1 := upd (p_ex s) v (nth v (p_ex s) 0 - amount)%Z in
          let ex2 := upd ex1 t (nth t ex1 0 + amount)%Z in
          enqueue t (mk_prs fl ex2 (p_ds s) (p_ac s) (p_ct s) (p_q s))
  end.

(* push_relabel.h:213-222 gap_heuristic, the body for one node *)
Definition gap_node (n level : nat) (s : prs) (v : nat) : prs :=
  let d := nth v (p_ds s) 0 in
  if d <? level then s
  else
    let ct1 := bump (p_ct s) d (-1) in
    let d' := Nat.max d n in
    enqueue v (mk_prs (p_fl s) (p_ex s) (upd (p_ds s) v d') (p_ac s) (bump ct1 d' 1) (p_q s)).

(* push_relabel.h:213-222 gap_heuristic *)
Definition gap_heuristic (n level : nat) (s : prs) : prs := fold_left (gap_node n level) (seq 0 n) s.

(* push_relabel.h:233-240 the new distance of a node: minimum over the residual edges *)
Definition low_dist (R : list (list half)) (s : prs) (v : nat) : nat :=
  fold_left (fun d e => if (resid R (p_fl s) v e =? 0)%Z then d
                        else match slot R v e with
                             | Some (t, _, _) => Nat.min d (S (nth t (p_ds s) 0))
                             | None => d
                             end) (seq 0 (length (nth v R []))) (2 * length R).

(* push_relabel.h:226-244 relabel; during the loop the distance of the node itself is 2n, and a node has no
   edge to itself, so the targets' distances are those of the state before *)
Definition relabel (R : list (list half)) (v : nat) (s : prs) : prs :=
  let ct1 := bump (p_ct s) (nth v (p_ds s) 0) (-1) in
  let d := low_dist R s v in
  enqueue v (mk_prs (p_fl s) (p_ex s) (upd (p_ds s) v d) (p_ac s) (bump ct1 d 1) (p_q s)).

(* push_relabel.h:194-199 discharge, the first k rounds of the loop; the break is the first case *)
Definition push_round (R : list (list half)) (v sd : nat) (s : prs) (e : nat) : prs :=
  if (nth v (p_ex s) 0 =? 0)%Z then s else push_edge R v e sd s.
Definition push_rounds (R : list (list half)) (v k : nat) (s : prs) : prs :=
  fold_left (push_round R v (nth v (p_ds s) 0)) (seq 0 k) s.

(* push_relabel.h:192-210 discharge *)
Definition discharge (R : list (list half)) (v : nat) (s : prs) : prs :=
  let s1 := push_rounds R v (length (nth v R [])) s in
  if (0 <? nth v (p_ex s1) 0)%Z then
    let d := nth v (p_ds s1) 0 in
    if (nth d (p_ct s1) 0 =? 1)%Z && (d <? length R) then gap_heuristic (length R) d s1
    else relabel R v s1
  else s1.

(* push_relabel.h:117-141, 266-281, 287-299 the body of the three breadth-first searches for one edge
   of node x: an untouched target reached over an admissible edge is touched, queued and handled by f *)
Definition bfs_edge {A} (ok : nat -> half -> bool) (f : nat -> nat -> A -> A) (x : nat)
    (b : list nat * list bool * A) (h : half) : list nat * list bool * A :=
  let '(q, tc, a) := b in
  let t := fst (fst h) in
  if nth t tc false then b else if ok x h then (q ++ [t], upd tc t true, f x t a) else b.

(* push_relabel.h:117-141, 266-281, 287-299 the three breadth-first searches; None when out of fuel *)
Fixpoint bfs {A} (R : list (list half)) (ok : nat -> half -> bool) (f : nat -> nat -> A -> A) (fuel : nat)
    (q : list nat) (tc : list bool) (a : A) : option (list bool * A) :=
  match q with
  | [] => Some (tc, a)
  | x :: q' =>
      match fuel with
      | 0 => None
      | S k => let '(q2, tc2, a2) := fold_left (bfs_edge ok f x) (nth x R []) (q', tc, a) in bfs R ok f k q2 tc2 a2
      end
  end.

(* push_relabel.h:128-130 label the target of an edge of node *)
Definition gr_label (x t : nat) (a : list nat * list Z) : list nat * list Z :=
  let '(ds, ct) := a in
  let d := S (nth x ds 0) in
  (upd ds t d, bump (bump ct (nth t ds 0) (-1)) d 1).

(* push_relabel.h:103-107 one sink of the loop over the sources *)
Definition gr_sink (src : nat) (b : list nat * list bool * (list nat * list Z)) (t : nat) :
    list nat * list bool * (list nat * list Z) :=
  let '(q, tc, (ds, ct)) := b in
  if t =? src then (q, tc, (ds, ct))
  else (q ++ [t], upd tc t true, (upd ds t 0, bump (bump ct (nth t ds 0) (-1)) 0 1)).

(* push_relabel.h:78-142 global_relabeling *)
Definition global_relabel (initial : bool) (R : list (list half)) (ts : list nat) (src : nat) (s : prs) : option prs :=
  let n := length R in
  let ds0 := map (fun d => Nat.max d n) (p_ds s) in
  let ds1 := upd ds0 src n in
  let '(q, tc, (ds, ct)) := fold_left (gr_sink src) ts ([], repeat false n, (ds1, p_ct s)) in
  let ok := fun (x : nat) (h : half) =>
    if initial then true else negb (resid R (p_fl s) (fst (fst h)) (snd h) =? 0)%Z in
  match bfs R ok gr_label n q (upd tc src true) (ds, ct) with
  | None => None
  | Some (_, (ds', ct')) => Some (mk_prs (p_fl s) (p_ex s) ds' (p_ac s) ct' (p_q s))
  end.

(* push_relabel.h:356-365 edge_flow, all zero *)
Definition zero_flow (R : list (list half)) : list (list Z) := map (fun row => repeat 0%Z (length row)) R.

(* push_relabel.h:70-73 init, the loop over the edges of the source *)
Definition init_edge (R : list (list half)) (src : nat) (s : prs) (e : nat) : prs :=
  match slot R src e with
  | None => s
  | Some (_, w, _) =>
      push_edge R src e (length R)
        (mk_prs (p_fl s) (upd (p_ex s) src (nth src (p_ex s) 0 + Z.of_N w)%Z) (p_ds s) (p_ac s) (p_ct s) (p_q s))
  end.

(* push_relabel.h:43-74, 356-365 init of a fresh solver *)
Definition pr_init (R : list (list half)) (ts : list nat) (src : nat) : prs :=
  let n := length R in
  let ct := upd (upd (repeat 0%Z (2 * n)) 0 (Z.of_nat n - 1)%Z) n 1%Z in
  let ac := fold_left (fun a t => upd a t true) ts (repeat false n) in
  fold_left (init_edge R src) (seq 0 (length (nth src R [])))
    (mk_prs (zero_flow R) (repeat 0%Z n) (upd (repeat 0 n) src n) ac ct []).

(* push_relabel.h:399-400 m_Q.deleteMax, m_active[v] = false; v is any queued node *)
Definition take (v : nat) (s : prs) : prs :=
  mk_prs (p_fl s) (p_ex s) (p_ds s) (upd (p_ac s) v false) (p_ct s) (remove Nat.eq_dec v (p_q s)).

(* push_relabel.h:396-425 the main loop; pick k q is the node taken in round k, gl k tells whether round k ends
   with a global relabeling; None when out of fuel *)
Fixpoint pr_loop (fuel : nat) (pick : nat -> list nat -> nat) (gl : nat -> bool) (k : nat)
    (R : list (list half)) (ts : list nat) (src : nat) (s : prs) : option prs :=
  match p_q s with
  | [] => Some s
  | _ :: _ =>
      match fuel with
      | 0 => None
      | S f =>
          let v := pick k (p_q s) in
          let s1 := discharge R v (take v s) in
          match (if gl k then global_relabel false R ts src s1 else Some s1) with
          | None => None
          | Some s2 => pr_loop f pick gl (S k) R ts src s2
          end
      end
  end.

(* push_relabel.h:253-264 computeSourceSet, the sinks *)
Definition ss_sink (src : nat) (b : list nat * list bool) (t : nat) : list nat * list bool :=
  if t =? src then b else (fst b ++ [t], upd (snd b) t true).

(* push_relabel.h:246-302 computeSourceSet *)
Definition source_set (R : list (list half)) (ts : list nat) (src : nat) (fl : list (list Z)) : option (list nat) :=
  let n := length R in
  let '(q, tc) := fold_left (ss_sink src) ts ([], repeat false n) in
  let ok := fun (x : nat) (h : half) => (0 <? resid R fl (fst (fst h)) (snd h))%Z in
  match bfs R ok (fun _ _ (a : unit) => a) n q tc tt with
  | None => None
  | Some (tc1, _) =>
      match bfs R (fun _ _ => true) (fun _ t (a : list nat) => a ++ [t]) n [src] (upd tc1 src true) [src] with
      | None => None
      | Some (_, l) => Some l
      end
  end.

(* push_relabel.h:427-433 total_flow *)
Definition total_flow (ts : list nat) (src : nat) (s : prs) : Z :=
  fold_left (fun a t => if t =? src then a else (a + nth t (p_ex s) 0)%Z) ts 0%Z.

(* push_relabel.h:340-457 solve_max_flow_min_cut with compute_source_set; -1 and no set when a terminal is out
   of range *)
Definition solve_max_flow (fuel : nat) (pick : nat -> list nat -> nat) (gl : nat -> bool)
    (R : list (list half)) (ts : list nat) (i : nat) : option (Z * list nat) :=
  if negb (forallb (fun t => t <? length R) ts) then Some ((-1)%Z, [])
  else
    match nth_error ts i with
    | None => None
    | Some src =>
        match global_relabel true R ts src (pr_init R ts src) with
        | None => None
        | Some s0 =>
            match pr_loop fuel pick gl 0 R ts src s0 with
            | None => None
            | Some s => match source_set R ts src (p_fl s) with
                        | None => None
                        | Some l => Some (total_flow ts src s, l)
                        end
            end
        end
    end.

(* mutable_graph.h:28-34 flow and problem_id of every half edge, as stored in the graph *)
Definition gflows := list (list (Z * N)).

(* mutable_graph.h:197-205 getEdgeFlow: a flow of another problem reads as zero and is claimed for this problem *)
Definition g_get (g : gflows) (v e : nat) (pid : N) : gflows * Z :=
  let '(f, p) := nth e (nth v g []) (0%Z, 0%N) in
  if (p =? pid)%N then (g, f) else (upd g v (upd (nth v g []) e (0%Z, pid)), 0%Z).

(* mutable_graph.h:188-195 addEdgeFlow *)
Definition g_add (g : gflows) (v e : nat) (x : Z) (pid : N) : gflows :=
  let '(f, p) := nth e (nth v g []) (0%Z, 0%N) in
  upd g v (upd (nth v g []) e (if (p =? pid)%N then ((f + x)%Z, pid) else (x, pid))).
