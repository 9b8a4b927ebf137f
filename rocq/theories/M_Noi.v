(* M_Noi.v - model of lib/algorithms/global_mincut/noi_minimum_cut.h on static graphs: choice of the
   queue, modified_capforest, perform_minimum_cut.  Random start vertices and hash-set orders are
   parameters.  Sums of weights are unbounded; the queue truncates its keys to 32 bits. *)
From Verif Require Export M_CutHelpers SpecPQ M_Heap M_BucketPQ.

(* noi_minimum_cut.h:85-121 the queue classes that can be selected *)
Inductive pq := PHeap (s : heap) | PBucket (fifo : bool) (s : bq).
(* priority_queue_interface: dispatch to the class *)
Definition pq_step (q : pq) (o : qop) : option (pq * qres) :=
  match q with
  | PHeap s => option_map (fun '(s', r) => (PHeap s', r)) (heap_step s o)
  | PBucket fifo s => option_map (fun '(s', r) => (PBucket fifo s', r)) (bq_step fifo s o)
  end.

(* common/configuration.h: pq and disable_limiting *)
Inductive pq_kind := KDefault | KBqueue | KHeap | KBstack.
Record cfg := mk_cfg { cfg_pq : pq_kind; cfg_nolimit : bool }.

(* noi_minimum_cut.h:85-121 selectPq (the unknown-name exit is left out) *)
Definition key_limit (cf : cfg) (G : graph) (mincut : N) : N :=
  if cfg_nolimit cf then max_degree G else mincut.
Definition select_pq (cf : cfg) (G : graph) (mincut : N) : pq :=
  let n := length G in
  let mc := key_limit cf G mincut in
  match cfg_pq cf with
  | KDefault => if (10000 <? mc)%N && (N.of_nat n <? mc)%N then PHeap (heap_init n)
                else PBucket true (bq_init n (N.to_nat mc))
  | KBqueue => PBucket true (bq_init n (N.to_nat mc))
  | KHeap => PHeap (heap_init n)
  | KBstack => PBucket false (bq_init n (N.to_nat mc))
  end.

(* noi_minimum_cut.h:125-132 local state of modified_capforest *)
Record cfs := mk_cfs { s_q : pq; s_vis : list bool; s_seen : list bool; s_r : list N; s_uf : uf }.

(* noi_minimum_cut.h:146-167 and 173-191: one edge (t, w) of current_node, target not visited *)
Definition relax (cf : cfg) (mincut : N) (cur : nat) (s : cfs) (t : nat) (w : N) : option cfs :=
  let rt := nth t (s_r s) 0%N in
  let open := (rt <? mincut)%N || (negb (cfg_nolimit cf) && (mincut =? 0)%N) in
  match (if open && (mincut <=? rt + w)%N
         then match uf_union (s_uf s) cur t with Some (u', _) => Some u' | None => None end
         else Some (s_uf s)) with
  | None => None
  | Some u' =>
      let r' := upd (s_r s) t (rt + w)%N in
      let key := if cfg_nolimit cf then (rt + w)%N else N.min (rt + w) mincut in
      if nth t (s_seen s) false then
        if cfg_nolimit cf || open then
          match pq_step (s_q s) (QIncreaseKey t key) with
          | Some (q', _) => Some (mk_cfs q' (s_vis s) (s_seen s) r' u')
          | None => None
          end
        else Some (mk_cfs (s_q s) (s_vis s) (s_seen s) r' u')
      else
        match pq_step (s_q s) (QInsert t key) with
        | Some (q', _) => Some (mk_cfs q' (s_vis s) (upd (s_seen s) t true) r' u')
        | None => None
        end
  end.

(* noi_minimum_cut.h:143-168 / 171-193 the edge loop *)
Fixpoint relax_all (cf : cfg) (mincut : N) (cur : nat) (s : cfs) (es : list (nat * N)) : option cfs :=
  match es with
  | [] => Some s
  | (t, w) :: es' =>
      if t <? length (s_vis s) then
        if nth t (s_vis s) false then relax_all cf mincut cur s es'
        else match relax cf mincut cur s t w with
             | Some s' => relax_all cf mincut cur s' es'
             | None => None
             end
      else None
  end.

(* noi_minimum_cut.h:139-195 the main loop; the fuel is an upper bound for the rounds *)
Fixpoint scan_loop (fuel : nat) (cf : cfg) (G : graph) (mincut : N) (s : cfs) : option uf :=
  match fuel with
  | 0 => None
  | S fuel' =>
      match pq_step (s_q s) QEmpty with
      | Some (q1, RBool true) => Some (s_uf s)
      | Some (q1, RBool false) =>
          match pq_step q1 QDeleteMax with
          | Some (q2, RNode cur) =>
              match relax_all cf mincut cur
                      (mk_cfs q2 (upd (s_vis s) cur true) (s_seen s) (s_r s) (s_uf s)) (nth cur G []) with
              | Some s' => scan_loop fuel' cf G mincut s'
              | None => None
              end
          | _ => None
          end
      | _ => None
      end
  end.

(* noi_minimum_cut.h:123-198 modified_capforest; rnd is the value of random_functions::next() *)
Definition capforest (cf : cfg) (rnd : nat) (G : graph) (mincut : N) : option uf :=
  let n := length G in
  match pq_step (select_pq cf G mincut) (QInsert (rnd mod n) 0) with
  | Some (q, _) =>
      scan_loop (S n) cf G mincut
        (mk_cfs q (repeat false n) (repeat false n) (repeat 0%N n) (uf_init n))
  | None => None
  end.

(* noi_minimum_cut.h:72-77 the contraction loop; rounds are numbered downwards by the fuel, which
   selects the random value and the hash-set order of the round *)
Fixpoint noi_loop (fuel : nat) (cf : cfg) (rnd : nat -> nat) (ord : nat -> nat -> list nat -> list nat)
    (maps : list (list nat)) (G : graph) (mincut : N) (marks : list bool) : option (N * list bool) :=
  if (2 <? length G) && (0 <? mincut)%N then
    match fuel with
    | 0 => None
    | S fuel' =>
        match capforest cf (rnd fuel) G mincut with
        | None => None
        | Some u =>
            match from_union_find (ord fuel) G u with
            | None => None
            | Some (H, mapping) =>
                let '(mincut', marks') := update_cut (maps ++ [mapping]) H mincut marks in
                noi_loop fuel' cf rnd ord (maps ++ [mapping]) H mincut' marks'
            end
        end
    end
  else Some (mincut, marks).

(* noi_minimum_cut.h:61-83 perform_minimum_cut with save_cut: the value and the in-cut marks (which
   retrieveMinimumCut, minimum_cut_helpers.h:88-100, copies to the partition indices) *)
Definition noi (cf : cfg) (rnd : nat -> nat) (ord : nat -> nat -> list nat -> list nat) (G : graph)
  : option (N * list bool) :=
  noi_loop (length G) cf rnd ord [] G (min_degree G) (initial_marks G).
