(* M_TempCC.v - model of app/temporal_largest_cc.cpp: of a list of temporal edges it keeps those in the largest connected component and
   numbers the vertices anew.  Reading and writing the text are not part of this file.  None: an access out of range. *)
From Verif Require Export M_Scc.

(* graph_io.h:69-71 an edge: source, target, weight, time *)
Definition tedge := (nat * nat * Z * N)%type.
(* graph_io.h:69-71 *)
Definition te_a (e : tedge) : nat := fst (fst (fst e)).
(* graph_io.h:69-71 *)
Definition te_b (e : tedge) : nat := snd (fst (fst e)).

(* temporal_largest_cc.cpp:43-47, mutable_graph.h:146-154 new_edge_order: the targets in the row of u; loops are left out, weights are
   not looked at by the search for components *)
Definition tc_row (es : list tedge) (u : nat) : list (option nat) :=
  flat_map (fun e => if te_a e =? te_b e then [] else if te_a e =? u then [Some (te_b e)] else if te_b e =? u then [Some (te_a e)] else []) es.
(* temporal_largest_cc.cpp:41-47 *)
Definition tc_rows (n : nat) (es : list tedge) : list (list (option nat)) := map (tc_row es) (seq 0 n).

(* temporal_largest_cc.cpp:67, 77 components[i] == max_comp *)
Definition tc_is (m : nat) (o : option nat) : bool := match o with Some c => c =? m | None => false end.

(* temporal_largest_cc.cpp:62-71 maxCompID; ctr is mCCtr *)
Fixpoint tc_ids (m ctr : nat) (comps : list (option nat)) : list nat :=
  match comps with
  | [] => []
  | o :: r => if tc_is m o then ctr :: tc_ids m (S ctr) r else 0 :: tc_ids m ctr r
  end.

(* temporal_largest_cc.cpp:76-82 the lines that are written *)
Definition tc_lines (m : nat) (comps : list (option nat)) (ids : list nat) (es : list tedge) : list tedge :=
  flat_map (fun e => if tc_is m (nth (te_a e) comps None) && tc_is m (nth (te_b e) comps None)
                     then [(nth (te_a e) ids 0, nth (te_b e) ids 0, snd (fst e), snd e)] else []) es.

(* temporal_largest_cc.cpp:39-84 *)
Definition temporal_cc (n : nat) (es : list tedge) : option (list tedge) :=
  if forallb (fun e => (te_a e <? n) && (te_b e <? n)) es then
    match strong_components scc_new (tc_rows n es) with
    | None => None
    | Some s =>
        match comp_sizes (s_comp s) (repeat 0 (s_cc s)) with
        | None => None
        | Some sz => let m := max_index sz in Some (tc_lines m (s_comp s) (tc_ids m 1 (s_comp s)) es)
        end
    end
  else None.
