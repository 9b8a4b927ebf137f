(* M_LimFlow.v - model of lib/algorithms/flow/push_relabel.h for limited = true: the computation stops when the flow into the
   sink reaches a limit, and the first labelling looks only depthOfPartialRelabeling levels deep.  Everything else is as in
   M_PushRelabel (the order of the heap and the moments of the global relabelings are arbitrary, flows are unbounded). *)
From Verif Require Export M_PushRelabel.

(* push_relabel.h:145-173 push with limited; the second component is m_limitreached *)
Definition lim_push (snk : nat) (limit : Z) (R : list (list half)) (v e sd : nat) (b : prs * bool) : prs * bool :=
  let s := fst b in
  match slot R v e with
  | None => b
  | Some (t, w, r) =>
      if sd <=? nth t (p_ds s) 0 then b
      else
        let amount := Z.min (Z.of_N w - eflow (p_fl s) v e) (nth v (p_ex s) 0%Z) in
        if (amount =? 0)%Z then b
        else
          let fl := add_flow (add_flow (p_fl s) v e amount) t r (- amount)%Z in
          let ex1 := upd (p_ex s) v (nth v (p_ex s) 0 - amount)%Z in
          let ex2 := upd ex1 t (nth t ex1 0 + amount)%Z in
          let s' := mk_prs fl ex2 (p_ds s) (p_ac s) (p_ct s) (p_q s) in
          if (t =? snk) && (limit <=? nth t ex2 0)%Z then (s', true) else (enqueue t s', snd b)
  end.

(* push_relabel.h:194-199 the loop of discharge *)
Definition lim_round (snk : nat) (limit : Z) (R : list (list half)) (v sd : nat) (b : prs * bool) (e : nat) : prs * bool :=
  if (nth v (p_ex (fst b)) 0 =? 0)%Z then b else lim_push snk limit R v e sd b.

(* push_relabel.h:192-210 discharge *)
Definition lim_discharge (snk : nat) (limit : Z) (R : list (list half)) (v : nat) (b : prs * bool) : prs * bool :=
  let '(s1, f1) := fold_left (lim_round snk limit R v (nth v (p_ds (fst b)) 0)) (seq 0 (length (nth v R []))) b in
  if (0 <? nth v (p_ex s1) 0)%Z then
    let d := nth v (p_ds s1) 0 in
    if (nth d (p_ct s1) 0 =? 1)%Z && (d <? length R) then (gap_heuristic (length R) d s1, f1)
    else (relabel R v s1, f1)
  else (s1, f1).

(* push_relabel.h:117-141 the body of the search for one edge of node x: the target is queued below the depth only *)
Definition lim_edge (depth x : nat) (b : list nat * list bool * (list nat * list Z)) (h : half) : list nat * list bool * (list nat * list Z) :=
  let '(q, tc, a) := b in
  let t := fst (fst h) in
  if nth t tc false then b
  else
    let a' := gr_label x t a in
    ((if nth t (fst a') 0 <? depth then q ++ [t] else q), upd tc t true, a').

(* push_relabel.h:113-141 the search; None when out of fuel *)
Fixpoint lim_bfs (R : list (list half)) (depth fuel : nat) (q : list nat) (tc : list bool) (a : list nat * list Z) : option (list bool * (list nat * list Z)) :=
  match q with
  | [] => Some (tc, a)
  | x :: q' =>
      match fuel with
      | 0 => None
      | S k => let '(q2, tc2, a2) := fold_left (lim_edge depth x) (nth x R []) (q', tc, a) in lim_bfs R depth k q2 tc2 a2
      end
  end.

(* push_relabel.h:78-142 global_relabeling<true>; depth is depthOfPartialRelabeling.  None: m_count has 2n entries, the write
   to entry depth + 1 is out of range.  The label of the source is set before the loop over the sinks, which does not read it *)
Definition lim_relabel (depth : nat) (R : list (list half)) (ts : list nat) (src : nat) (s : prs) : option prs :=
  let n := length R in
  if 2 * n <=? S depth then None
  else
    let ct := upd (upd (p_ct s) 0 0%Z) (S depth) (Z.of_nat n - 1)%Z in
    let '(q, tc, (ds, ct1)) := fold_left (gr_sink src) ts ([], repeat false n, (upd (repeat (S depth) n) src n, ct)) in
    if S depth <=? 1 then Some (mk_prs (p_fl s) (p_ex s) ds (p_ac s) ct1 (p_q s))
    else
      match lim_bfs R depth n q (upd tc src true) (ds, ct1) with
      | None => None
      | Some (_, (ds', ct')) => Some (mk_prs (p_fl s) (p_ex s) ds' (p_ac s) ct' (p_q s))
      end.

(* push_relabel.h:70-73 init, the loop over the edges of the source *)
Definition lim_init_edge (snk : nat) (limit : Z) (R : list (list half)) (src : nat) (b : prs * bool) (e : nat) : prs * bool :=
  let s := fst b in
  match slot R src e with
  | None => b
  | Some (_, w, _) =>
      lim_push snk limit R src e (length R)
        (mk_prs (p_fl s) (upd (p_ex s) src (nth src (p_ex s) 0 + Z.of_N w)%Z) (p_ds s) (p_ac s) (p_ct s) (p_q s), snd b)
  end.

(* push_relabel.h:43-74, 356-374 init; every flow reads as zero at the start (a fresh problem id, see M_PushRelabel.g_get) *)
Definition lim_init (snk : nat) (limit : Z) (R : list (list half)) (ts : list nat) (src : nat) : prs * bool :=
  let n := length R in
  let ct := upd (upd (repeat 0%Z (2 * n)) 0 (Z.of_nat n - 1)%Z) n 1%Z in
  let ac := fold_left (fun a t => upd a t true) ts (repeat false n) in
  fold_left (lim_init_edge snk limit R src) (seq 0 (length (nth src R [])))
    (mk_prs (zero_flow R) (repeat 0%Z n) (upd (repeat 0 n) src n) ac ct [], false).

(* push_relabel.h:396-425 the main loop; the flag of the result tells whether it was left by the return of line 415 *)
Fixpoint lim_loop (fuel : nat) (pick : nat -> list nat -> nat) (gl : nat -> bool) (k : nat) (snk : nat) (limit : Z)
    (R : list (list half)) (ts : list nat) (src : nat) (b : prs * bool) : option (prs * bool) :=
  match p_q (fst b) with
  | [] => Some (fst b, false)
  | _ :: _ =>
      match fuel with
      | 0 => None
      | S f =>
          let v := pick k (p_q (fst b)) in
          let '(s1, f1) := lim_discharge snk limit R v (take v (fst b), snd b) in
          if f1 then Some (s1, true)
          else
            match (if gl k then global_relabel false R ts src s1 else Some s1) with
            | None => None
            | Some s2 => lim_loop f pick gl (S k) snk limit R ts src (s2, f1)
            end
      end
  end.

(* push_relabel.h:340-457 solve_max_flow_min_cut without compute_source_set: the value, and the flow that is left in the graph.
   Line 380: m_sink is the other one of the two terminals *)
Definition lim_solve (depth fuel : nat) (pick : nat -> list nat -> nat) (gl : nat -> bool) (limit : Z)
    (R : list (list half)) (ts : list nat) (i : nat) : option (Z * list (list Z)) :=
  if negb (forallb (fun t => t <? length R) ts) then Some ((-1)%Z, zero_flow R)
  else
    match nth_error ts i, nth_error ts (if i =? 1 then 0 else 1) with
    | Some src, Some snk =>
        let '(s, f) := lim_init snk limit R ts src in
        match lim_relabel depth R ts src s with
        | None => None
        | Some s0 =>
            match lim_loop fuel pick gl 0 snk limit R ts src (s0, f) with
            | None => None
            | Some (s1, stopped) => Some (if stopped then limit else total_flow ts src s1, p_fl s1)
            end
        end
    | _, _ => None
    end.
