(* M_Rebuild.v - model of recursive_cactus::decrementalRebuild
   (lib/algorithms/global_mincut/cactus/recursive_cactus.h:88-97). *)
From Verif Require Export M_Scc M_StCactus M_LimFlow.

(* strongly_connected_components.h:73 m_comp_num as a vector of ints; no entry is -1 at the end (C45) *)
Definition comp_vector (o : scc) : list nat := map (fun c => match c with Some c => c | None => 0 end) (s_comp o).

(* recursive_cactus.h:88-97 decrementalRebuild; E: the edges of G with their flow and problem id, in the order of the rows of G *)
Definition decremental_rebuild (fpid : nat) (E : list (list fedge)) (G : mg) (s : nat) (mincut : N) : option mg :=
  match strong_components scc_new (res_rows (Some fpid) E) with
  | None => None
  | Some o => find_st_cactus (comp_vector o) G s (s_cc o) mincut
  end.

(* push_relabel.h:304-326 and mutable_graph.h:183-209: the edges after a flow problem fpid, fl the flow.  An edge that
   the problem has not touched has another id and reads as 0 (C51); here every edge carries the id *)
Definition stored (fpid : nat) (R : list (list half)) (fl : list (list Z)) : list (list fedge) :=
  map (fun v => map (fun e => match nth e (nth v R []) (0, 0%N, 0) with (t, w, _) => mk_fe t w (nth e (nth v fl []) 0%Z) fpid end) (seq 0 (length (nth v R [])))) (seq 0 (length R)).

(* dynamic_mincut.h:285-286, 293-295 solve_max_flow_min_cut(original_graph, {s, t}, 0, false, current_cut, fpid) in call k, as
   the value and the flow left in the graph; depth: push_relabel.h:84; pick, gl: as in C73, for each call *)
Definition code_flow (depth fuel : nat) (pick : nat -> nat -> list nat -> nat) (gl : nat -> nat -> bool) (k : nat) (G : mg) (s t : nat) (lim : N) : N * list (list Z) :=
  match lim_solve depth fuel (pick k) (gl k) (Z.of_N lim) (m_rows G) [s; t] 0 with Some (x, fl) => (Z.to_N x, fl) | None => (0%N, []) end.

(* dynamic_mincut.h:288, 299 decrementalRebuild(original_graph, s, flow, fpid); the problem id is the number of the call
   (dynamic_mincut.h:283, 292 flow_problem_id++).  Undefined behaviour: a graph without vertices *)
Definition code_rebuild (k : nat) (G : mg) (s : nat) (c : N) (fl : list (list Z)) : mg :=
  match decremental_rebuild k (stored k (m_rows G) fl) G s c with Some M => M | None => mk_mg [] [] [] [] [] [] 0 0 0 0 end.
