(* M_ParContract.v - model of the parallel contraction of static graphs: lib/parallel/coarsening/contract_graph.h
   contractGraphSparse as a machine of threads.  The graph is given as its edge lists (see M_Contract).  Which thread
   gets which vertex (schedule(guided)) is a list of lists, the order of the steps an arbitrary list of thread numbers.
   insert_or_update of the growt table is one step (its contract: exactly one thread gets true for a key).  The counters
   degrees[] are only read behind the barrier, so their atomic increments belong to the same step.  A compare-and-swap
   loop is one step, its failed rounds are left out (the counter is read twice in 416-417, but it never falls, so a round
   succeeds only if both reads agree).  Weights are unbounded, the member e of the graph (written
   without lock in new_edge_and_reverse, read by nobody) is left out.  None: access out of range. *)
From Verif Require Export SpecCut M_Mutable.

(* parallel contract_graph.h:49-55 get_uint64_from_pair; the low 32 bits are free, so | is + *)
Definition key_of (a b : nat) : N :=
  let '(x, y) := if b <? a then (b, a) else (a, b) in ((N.of_nat x * 2 ^ 32 + N.of_nat y) mod 2 ^ 64)%N.
(* parallel contract_graph.h:57-62 get_pair_from_uint64; NodeID has 32 bits *)
Definition pair_of (k : N) : nat * nat := (N.to_nat ((k / 2 ^ 32) mod 2 ^ 32), N.to_nat (k mod 2 ^ 32))%N.

(* parallel contract_graph.h:301-324 the contested edge: (contested_edge, block0, block1).  big: the test of 305, which only
   compares the size of the graph.  nth_element is taken by its contract: el[0] is the largest, el[1] the second largest
   number.  None: el[1] is read although el has fewer than two places *)
Definition count_blocks (mapping : list nat) (num : nat) : list nat := map (fun b => length (filter (fun x => x =? b) mapping)) (seq 0 num).
Definition top (l : list nat) : nat := fold_right Nat.max 0 l.
Fixpoint index_of (x : nat) (l : list nat) : nat := match l with [] => 0 | y :: l' => if y =? x then 0 else S (index_of x l') end.
Fixpoint without (x : nat) (l : list nat) : list nat := match l with [] => [] | y :: l' => if y =? x then l' else y :: without x l' end.
Definition contested (big : bool) (n : nat) (mapping : list nat) (num : nat) : option (N * nat * nat) :=
  if big then
    if num <? 2 then None else
      let el := count_blocks mapping num in
      let e1 := top (without (top el) el) in
      if n / 5 <? e1 then Some (key_of (index_of e1 el) (index_of (top el) el), index_of (top el) el, index_of e1 el) else Some (0%N, 0, 0)
  else Some (0%N, 0, 0).

(* parallel contract_graph.h:344-354 the edges of n that are counted: (p, contracted_target, wgt) *)
Definition item := (nat * nat * N)%type.
Definition node_items (G : graph) (mapping : list nat) (n : nat) : list item :=
  flat_map (fun e => if nth n mapping 0 <=? nth (fst e) mapping 0 then [] else [(nth n mapping 0, nth (fst e) mapping 0, snd e)]) (nth n G []).

(* the table: key and weight *)
Definition has (k : N) (tab : list (N * N)) : bool := existsb (fun e => (fst e =? k)%N) tab.
Definition tget (k : N) (tab : list (N * N)) : N := match find (fun e => (fst e =? k)%N) tab with Some e => snd e | None => 0%N end.
Definition tadd (k w : N) (tab : list (N * N)) : list (N * N) := map (fun e => if (fst e =? k)%N then (fst e, (snd e + w)%N) else e) tab.

(* parallel contract_graph.h:327-341 the shared and the private variables of the first loop; h_q: the work left *)
Record st1 := mk_st1 { h_q : list (list item); h_tab : list (N * N); h_deg : list nat; h_keys : list (list N); h_cw : list N }.
Definition bump (l : list nat) (i : nat) : list nat := upd l i (S (nth i l 0)).
(* parallel contract_graph.h:344-373 thread i looks at its next edge; ce: contested_edge *)
Definition step1 (ce : N) (s : st1) (i : nat) : option st1 :=
  match nth i (h_q s) [] with
  | [] => Some s
  | (p, ct, w) :: r =>
      let k := key_of p ct in
      let q := upd (h_q s) i r in
      if (k =? ce)%N then Some (mk_st1 q (h_tab s) (h_deg s) (h_keys s) (upd (h_cw s) i (nth i (h_cw s) 0 + w)%N))
      else if has k (h_tab s) then Some (mk_st1 q (tadd k w (h_tab s)) (h_deg s) (h_keys s) (h_cw s))
      else if (p <? length (h_deg s)) && (ct <? length (h_deg s)) then
        Some (mk_st1 q (h_tab s ++ [(k, w)]) (bump (bump (h_deg s) p) ct) (upd (h_keys s) i (nth i (h_keys s) [] ++ [k])) (h_cw s))
      else None
  end.
Fixpoint run1 (ce : N) (s : st1) (sched : list nat) : option st1 :=
  match sched with [] => Some s | i :: sched' => match step1 ce s i with Some s' => run1 ce s' sched' | None => None end end.
(* parallel contract_graph.h:327-343 the start; assign: the vertices of each thread *)
Definition init1 (G : graph) (mapping : list nat) (num : nat) (assign : list (list nat)) : st1 :=
  mk_st1 (map (flat_map (node_items G mapping)) assign) [] (repeat 0 num) (map (fun _ => []) assign) (map (fun _ => 0%N) assign).
Definition done1 (s : st1) : Prop := forall i, nth i (h_q s) [] = [].

(* parallel contract_graph.h:375-394 the contested edge is put into the table by thread j; b0, b1: block0, block1 *)
Definition settle (ce : N) (b0 b1 j : nat) (s : st1) : option st1 :=
  let sum := fold_right N.add 0%N (h_cw s) in
  if (0 <? ce)%N && (0 <? sum)%N then
    if (b0 <? length (h_deg s)) && (b1 <? length (h_deg s)) then
      Some (mk_st1 (h_q s) (if has ce (h_tab s) then tadd ce sum (h_tab s) else h_tab s ++ [(ce, sum)]) (bump (bump (h_deg s) b0) b1)
              (upd (h_keys s) j (nth j (h_keys s) [] ++ [ce])) (h_cw s))
    else None
  else Some s.

(* parallel contract_graph.h:410-434 where a thread is: before a key; behind the first, behind the second counter *)
Inductive pc := P0 (ks : list N) | P1 (k : N) (fd : nat) (ks : list N) | P2 (k : N) (fd sd : nat) (ks : list N).
Record st2 := mk_st2 { d_cur : list nat; d_cells : list (option (nat * N)); d_thr : list pc }.
(* parallel contract_graph.h:398-408 cur_degrees, the edge array (resize_m) *)
Fixpoint starts (b : nat) (deg : list nat) : list nat := match deg with [] => [] | d :: deg' => b :: starts (b + d) deg' end.
Definition init2 (s : st1) : st2 := mk_st2 (starts 0 (h_deg s)) (repeat None (fold_right Nat.add 0 (h_deg s))) (map P0 (h_keys s)).
(* parallel contract_graph.h:410-434 a step of thread i; graph_access.h:110-117 new_edge_and_reverse writes the two cells *)
Definition step2 (tab : list (N * N)) (s : st2) (i : nat) : option st2 :=
  match nth i (d_thr s) (P0 []) with
  | P0 [] => Some s
  | P0 (k :: ks) =>
      let a := fst (pair_of k) in
      if has k tab && (a <? length (d_cur s)) then Some (mk_st2 (bump (d_cur s) a) (d_cells s) (upd (d_thr s) i (P1 k (nth a (d_cur s) 0) ks))) else None
  | P1 k fd ks =>
      let b := snd (pair_of k) in
      if b <? length (d_cur s) then Some (mk_st2 (bump (d_cur s) b) (d_cells s) (upd (d_thr s) i (P2 k fd (nth b (d_cur s) 0) ks))) else None
  | P2 k fd sd ks =>
      if (fd <? length (d_cells s)) && (sd <? length (d_cells s)) then
        Some (mk_st2 (d_cur s) (upd (upd (d_cells s) fd (Some (snd (pair_of k), tget k tab))) sd (Some (fst (pair_of k), tget k tab))) (upd (d_thr s) i (P0 ks)))
      else None
  end.
Fixpoint run2 (tab : list (N * N)) (s : st2) (sched : list nat) : option st2 :=
  match sched with [] => Some s | i :: sched' => match step2 tab s i with Some s' => run2 tab s' sched' | None => None end end.
Definition done2 (s : st2) : Prop := forall i, nth i (d_thr s) (P0 []) = P0 [].

(* graph_access.h:104-108 new_node_hacky, 330-332 edges_of: the edge lists of the finished graph; a cell never written
   has the value of resize_m *)
Definition rows_of (deg : list nat) (s : st2) : graph :=
  map (fun v => map (fun c => match c with Some e => e | None => (0, 0%N) end)
                  (firstn (nth v deg 0) (skipn (nth v (starts 0 deg) 0) (d_cells s)))) (seq 0 (length deg)).

(* parallel contract_graph.h:435-446 the ending for a mutable graph: the keys in the order of the critical sections *)
Fixpoint mut_build (tab : list (N * N)) (M : mg) (ks : list N) : option mg :=
  match ks with
  | [] => Some M
  | k :: ks' =>
      if has k tab then
        match new_edge_order M (fst (pair_of k)) (snd (pair_of k)) (tget k tab) with Some M' => mut_build tab M' ks' | None => None end
      else None
  end.

(* parallel contract_graph.h:143-144 the place of an edge in the full mesh *)
Definition slot (num src tgt : nat) : nat := src * (num - 1) + tgt - (if src <? tgt then 1 else 0).
(* parallel contract_graph.h:136-148 the private array p_intermediate of a thread behind the edges es of a vertex of block src *)
Fixpoint mesh_node (mapping : list nat) (num src : nat) (es : list (nat * N)) (arr : list N) : option (list N) :=
  match es with
  | [] => Some arr
  | (t, w) :: es' =>
      let tgt := nth t mapping 0 in
      if tgt =? src then mesh_node mapping num src es' arr
      else if slot num src tgt <? length arr then mesh_node mapping num src es' (upd arr (slot num src tgt) (nth (slot num src tgt) arr 0 + w)%N)
      else None
  end.
(* parallel contract_graph.h:134-148 ... behind the vertices vs *)
Fixpoint mesh_thread (G : graph) (mapping : list nat) (num : nat) (vs : list nat) (arr : list N) : option (list N) :=
  match vs with
  | [] => Some arr
  | v :: vs' => match mesh_node mapping num (nth v mapping 0) (nth v G []) arr with Some arr' => mesh_thread G mapping num vs' arr' | None => None end
  end.
(* parallel contract_graph.h:150-155 intermediate behind the critical sections, in the order of the list *)
Fixpoint mesh_all (G : graph) (mapping : list nat) (num : nat) (assign : list (list nat)) (inter : list N) : option (list N) :=
  match assign with
  | [] => Some inter
  | vs :: assign' =>
      match mesh_thread G mapping num vs (repeat 0%N (num * (num - 1))) with
      | Some arr => mesh_all G mapping num assign' (map (fun i => (nth i inter 0 + nth i arr 0)%N) (seq 0 (length inter)))
      | None => None
      end
  end.
(* parallel contract_graph.h:165-178 the edge lists of contracted *)
Definition mesh_rows (num : nat) (inter : list N) : graph :=
  map (fun i => flat_map (fun j => if i =? j then [] else if (0 <? nth (slot num i j) inter 0)%N then [(j, nth (slot num i j) inter 0%N)] else []) (seq 0 num)) (seq 0 num).
(* parallel contract_graph.h:118-184 contractGraphFullMesh; None: access out of range, also more edges than start_construction
   (157-163) made room for *)
Definition full_mesh (G : graph) (mapping : list nat) (num : nat) (assign : list (list nat)) : option graph :=
  match mesh_all G mapping num assign (repeat 0%N (num * (num - 1))) with
  | Some inter =>
      let H := mesh_rows num inter in
      if length (concat H) <=? length (filter (fun w => (0 <? w)%N) inter) then Some H else None
  | None => None
  end.
(* parallel contract_graph.h:279-291 contractGraph: which of the two is taken *)
Definition takes_sparse (n num : nat) : bool := n <? num * num.
