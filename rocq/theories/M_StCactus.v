(* M_StCactus.v - model of recursive_cactus::findSTCactus
   (lib/algorithms/global_mincut/cactus/recursive_cactus.h:323-484).  Weights are unbounded, except for the 32-bit keys of the
   bucket queue.  The three vectors A, B and order are one list of items. *)
From Coq Require Import ZArith.
From Verif Require Export M_Mutable M_BucketPQ M_Core.

(* mutable_graph.h:324-326 setContainedVertices *)
Definition set_cont (M : mg) (p : nat) (l : list nat) : option mg :=
  if p <? length (m_cont M) then
    Some (mk_mg (m_rows M) (m_deg M) (m_part M) (m_cut M) (m_pos M) (upd (m_cont M) p l) (m_last M) (m_ne M) (m_pc M) (m_orig M))
  else None.
(* mutable_graph.h:328-330 addContainedVertex *)
Definition add_cont (M : mg) (p x : nat) : option mg := set_cont M p (nth p (m_cont M) [] ++ [x]).
(* mutable_graph.h:364-366 setCurrentPosition *)
Definition set_pos (M : mg) (x p : nat) : option mg :=
  if x <? length (m_pos M) then
    Some (mk_mg (m_rows M) (m_deg M) (m_part M) (m_cut M) (upd (m_pos M) x p) (m_cont M) (m_last M) (m_ne M) (m_pc M) (m_orig M))
  else None.
(* mutable_graph.h:300-305 setOriginalNodes *)
Definition set_orig (M : mg) (n : nat) : mg :=
  mk_mg (m_rows M) (m_deg M) (m_part M) (m_cut M) (m_pos M ++ repeat 0 (n - length (m_pos M))) (m_cont M) (m_last M) (m_ne M) (m_pc M) n.
(* mutable_graph.h:92-95 resizePositions *)
Definition resize_pos (M : mg) (n : nat) : mg :=
  mk_mg (m_rows M) (m_deg M) (m_part M) (m_cut M) (firstn n (m_pos M ++ repeat 0 (n - length (m_pos M)))) (m_cont M) (m_last M) (m_ne M) (m_pc M) n.

(* recursive_cactus.h:333-340 one original vertex x of G *)
Definition sc_locate (v : list nat) (G : mg) (M : mg) (x : nat) : option mg :=
  match nth_error (m_pos G) x with
  | None => None
  | Some p =>
      if p <? m_n G then
        match nth_error v p with
        | None => None
        | Some q => match add_cont M q x with Some M1 => set_pos M1 x q | None => None end
        end
      else Some M
  end.
(* recursive_cactus.h:341-347 the pairs n < m *)
Definition sc_pairs (k : nat) : list (nat * nat) := flat_map (fun a => map (fun b => (a, b)) (seq (S a) (k - S a))) (seq 0 k).
(* recursive_cactus.h:349-358 one edge (n, t) of G *)
Definition sc_edge (v : list nat) (n : nat) (M : mg) (h : half) : option mg :=
  match nth_error v n, nth_error v (fst (fst h)) with
  | Some a, Some b =>
      if b <? a then
        match slot (m_rows M) a b with
        | Some (_, w0, _) => m_set_weight M a b (snd (fst h) + w0)%N
        | None => None
        end
      else Some M
  | _, _ => None
  end.
(* recursive_cactus.h:348-359 *)
Definition sc_vertex (v : list nat) (G : mg) (M : mg) (n : nat) : option mg := fold_opt (sc_edge v n) (nth n (m_rows G) []) M.
(* recursive_cactus.h:326-360 the graph contract; v: component of each vertex, k: number of components *)
Definition sc_contract (v : list nat) (G : mg) (k : nat) : option mg :=
  match fold_opt (fun M p => set_cont M p []) (seq 0 k) (set_orig (start_construction k) (m_orig G)) with
  | None => None
  | Some M0 =>
      match fold_opt (sc_locate v G) (seq 0 (m_orig G)) M0 with
      | None => None
      | Some M1 =>
          match fold_opt (fun M e => m_new_edge M (fst e) (snd e) 0) (sc_pairs k) M1 with
          | None => None
          | Some M2 => option_map m_finish (fold_opt (sc_vertex v G) (seq 0 (m_n G)) M2)
          end
      end
  end.

(* recursive_cactus.h:373-376 one edge of s *)
Definition sc_key0 (q : bq) (h : half) : option bq := bq_change_key false q (fst (fst h)) (snd (fst h)).
(* recursive_cactus.h:385-392 one edge of next *)
Definition sc_key (mincut : N) (q : bq) (h : half) : option bq :=
  match nth_error (bq_ix q) (fst (fst h)) with
  | None => None
  | Some (Some _, k) => bq_change_key false q (fst (fst h)) (N.min (k + snd (fst h)) mincut)
  | Some (None, _) => Some q
  end.
(* recursive_cactus.h:383-400 cnt further vertices are taken out of the queue *)
Fixpoint sc_take (cnt : nat) (rows : list (list half)) (mincut : N) (q : bq) : option (list nat) :=
  match cnt with
  | 0 => Some []
  | S cnt' =>
      match bq_delete_max false q with
      | None => None
      | Some (q1, x) =>
          match fold_opt (sc_key mincut) (nth x rows []) q1 with
          | None => None
          | Some q2 => option_map (cons x) (sc_take cnt' rows mincut q2)
          end
      end
  end.
(* recursive_cactus.h:365-400 the vertices of contract in the order in which they become vertices of the cactus (rev_node_mapping) *)
Definition sc_order (C : mg) (s : nat) (mincut : N) : option (list nat) :=
  match fold_opt (fun q n => if n =? s then Some q else bq_insert q n 0) (seq 0 (m_n C)) (bq_init (m_n C) (N.to_nat mincut + 1)) with
  | None => None
  | Some q0 =>
      match fold_opt sc_key0 (nth s (m_rows C) []) q0 with
      | None => None
      | Some q1 => option_map (cons s) (sc_take (m_n C - 1) (m_rows C) mincut q1)
      end
  end.

(* recursive_cactus.h:379-382, 395-399 vertex number i of the cactus is vertex x of contract *)
Definition sc_fill (C : mg) (M : mg) (e : nat * nat) : option mg :=
  match nth_error (m_cont C) (snd e) with
  | None => None
  | Some l => match set_cont M (fst e) l with Some M1 => fold_opt (fun M x => set_pos M x (fst e)) l M1 | None => None end
  end.
(* recursive_cactus.h:361-401 the vertices of the cactus; the order does not depend on them *)
Definition sc_vertices (C : mg) (ord : list nat) : option mg :=
  option_map m_finish (fold_opt (sc_fill C) (combine (seq 0 (length ord)) ord)
    (Nat.iter (m_n C) new_node (resize_pos (start_construction (m_n C)) (m_orig C)))).

(* recursive_cactus.h:402-404 an entry of the vectors A (a cycle) and B (a single vertex), in the order of the vector order *)
Inductive sc_item := ItB (x : nat) | ItA (xs : list nat).

(* recursive_cactus.h:415-424 cycle_degree after the edges of n *)
Definition sc_degree (cyc : list nat) (d : Z) (row : list half) : Z :=
  fold_left (fun d h => if existsb (Nat.eqb (fst (fst h))) cyc then (d - Z.of_N (snd (fst h)))%Z else (d + Z.of_N (snd (fst h)))%Z) row d.
(* recursive_cactus.h:412-429 the inner loop: i and curr_cycle at its end; None: no end within fuel, or out of range *)
Fixpoint sc_run (fuel : nat) (rows : list (list half)) (mincut : N) (ord : list nat) (i : nat) (cyc : list nat) (d : Z) : option (nat * list nat) :=
  match fuel with
  | 0 => None
  | S fuel' =>
      if ((d =? 0)%Z || (d =? Z.of_N mincut)%Z) && (i + 1 <? length rows) then
        match nth_error ord i with
        | None => None
        | Some x =>
            let d' := sc_degree cyc d (nth x rows []) in
            if (d' =? Z.of_N mincut)%Z then sc_run fuel' rows mincut ord (i + 1) (x :: cyc) d' else sc_run fuel' rows mincut ord i cyc d'
        end
      else Some (i, cyc)
  end.
(* recursive_cactus.h:405-442 the outer loop and the last vertex *)
Fixpoint sc_scan (fuel : nat) (rows : list (list half)) (mincut : N) (ord : list nat) (i : nat) : option (list sc_item) :=
  match fuel with
  | 0 => None
  | S fuel' =>
      if i <? length rows - 1 then
        match sc_run (2 * length rows) rows mincut ord i [] 0%Z with
        | None => None
        | Some (i', []) => option_map (cons (ItB i)) (sc_scan fuel' rows mincut ord (i' + 1))
        | Some (i', cyc) => option_map (cons (ItA (seq (i' - length cyc) (length cyc)))) (sc_scan fuel' rows mincut ord i')
        end
      else Some [ItB (length rows - 1)]
  end.

(* recursive_cactus.h:448-456 the edges of a path *)
Fixpoint sc_path (w : N) (prev : nat) (xs : list nat) (M : mg) : option mg :=
  match xs with
  | [] => Some M
  | x :: xs' => match new_edge_order M prev x w with Some M' => sc_path w x xs' M' | None => None end
  end.
(* recursive_cactus.h:445-481 the edges of the cactus; prev: previous.  A list ends with the item of the last vertex *)
Fixpoint sc_links (mincut : N) (its : list sc_item) (prev : nat) (M : mg) : option mg :=
  match its with
  | [] => Some M
  | ItB x :: its' =>
      match its' with
      | [] => Some M
      | ItB y :: _ => match new_edge_order M x y mincut with Some M' => sc_links mincut its' x M' | None => None end
      | ItA _ :: _ => sc_links mincut its' x M
      end
  | ItA xs :: its' =>
      let '(next, M1) := match its' with ItB y :: _ => (y, M) | _ => (m_last M, new_empty_node M) end in
      match sc_path (mincut / 2) prev (xs ++ [next]) M1 with
      | None => None
      | Some M2 => match new_edge_order M2 prev next (mincut / 2) with Some M3 => sc_links mincut its' next M3 | None => None end
      end
  end.

(* recursive_cactus.h:323-484 findSTCactus *)
Definition find_st_cactus (v : list nat) (G : mg) (s k : nat) (mincut : N) : option mg :=
  match nth_error (nth s (m_cont G) []) 0 with
  | None => None
  | Some x0 =>
      match sc_contract v G k with
      | None => None
      | Some C =>
          match nth_error (m_pos C) x0 with
          | None => None
          | Some s' =>
              match sc_order C s' mincut with
              | None => None
              | Some ord =>
                  match sc_vertices C ord with
                  | None => None
                  | Some M =>
                      match sc_scan (S (length (m_rows C))) (m_rows C) mincut ord 1 with
                      | None => None
                      | Some its => option_map m_finish (sc_links mincut (ItB 0 :: its) 0 M)
                      end
                  end
              end
          end
      end
  end.
