(* M_CutHelpers.v - model of lib/algorithms/global_mincut/minimum_cut_helpers.h (the parts shared by
   the minimum cut algorithms) over the edge lists of the graphs.  Degrees are those computed by
   graph_access::computeDegrees on the finished graph (M_Graph, C09). *)
From Verif Require Export M_Contract.

(* graph_access.h:479-483 weighted degree of a node *)
Definition deg (G : graph) (v : nat) : N := sumN snd (nth v G []).

(* graph_access.h:470-495, 517-523 getMinDegree *)
Definition min_degree (G : graph) : N :=
  fold_left (fun m d => if (d <? m)%N then d else m) (map (deg G) (seq 0 (length G))) u64max.

(* graph_access.h:470-495, 450-456 getMaxDegree *)
Definition max_degree (G : graph) : N :=
  fold_left (fun m d => if (m <? d)%N then d else m) (map (deg G) (seq 0 (length G))) 0%N.

(* minimum_cut_helpers.h:29-39 minimumIndex *)
Definition minimum_index (G : graph) : nat :=
  match find (fun v => (deg G v =? min_degree G)%N) (seq 0 (length G)) with Some v => v | None => 0 end.

(* minimum_cut_helpers.h:44-56 setInitialCutValues: the in-cut marks of graphs[0] *)
Definition initial_marks (G : graph) : list bool :=
  map (fun v => v =? minimum_index G) (seq 0 (length G)).

(* minimum_cut_helpers.h:67-70 walk through the levels; maps = the partition indices of graphs[0],
   graphs[1], ... *)
Definition coarse_id (maps : list (list nat)) (v : nat) : nat :=
  fold_left (fun x m => nth x m 0) maps v.

(* minimum_cut_helpers.h:58-86 updateCut with save_cut set: new marks and new value.  H is
   graphs.back(), maps the partition indices of all earlier graphs *)
Definition update_cut (maps : list (list nat)) (H : graph) (prev : N) (marks : list bool) : N * list bool :=
  if 1 <? length H then
    (N.min prev (min_degree H),
     if (min_degree H <? prev)%N
     then map (fun v => coarse_id maps v =? minimum_index H) (seq 0 (length marks))
     else marks)
  else (prev, marks).
