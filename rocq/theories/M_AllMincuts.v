(* M_AllMincuts.v - model of lib/algorithms/global_mincut/cactus/cactus_mincut.h findAllMincuts (static graphs, save_cut set) with
   minimum_cut_helpers.h setVertexLocations.  Parameters: the start value (known_mincut or the result of VieCut), random start
   vertices, hash set orders, and rec, the cactus of the reduced graph (recursive_cactus.h flowMincut).  The balanced cut, the output
   file, the timers and the statistics are left out.  The bound 1.01 * n < previous_size is evaluated exactly. *)
From Verif Require Export M_Noi M_PRTests M_Mutable.

(* cactus_mincut.h:108-118 the leaves whose edge weighs mincut: union with the neighbour, and the guaranteed edges *)
Fixpoint guaranteed (mincut : N) (G : graph) (ns : list nat) (u : uf) (ge : list (nat * nat)) : option (uf * list (nat * nat)) :=
  match ns with
  | [] => Some (u, ge)
  | n :: ns' =>
      match nth n G [] with
      | [(t, w)] =>
          if (w =? mincut)%N && (1 <? uf_n u) then
            match uf_union u n t with
            | Some (u', _) => guaranteed mincut G ns' u' (ge ++ [(n, t)])
            | None => None
            end
          else guaranteed mincut G ns' u ge
      | _ => guaranteed mincut G ns' u ge
      end
  end.

(* cactus_mincut.h:69-96 the state of the loop: partition indices of all graphs but the last, graphs.back(), mincut, and
   (ge_ids[i], guaranteed_edges[i]) *)
Record fam := mk_fam { f_maps : list (list nat); f_g : graph; f_cut : N; f_ge : list (nat * list (nat * nat)) }.

(* cactus_mincut.h:124-130, 137-143, 150-156 contraction if something was united; minimum_cut_helpers.h:80-85 the value of updateCut *)
Definition fam_contract (ord : nat -> list nat -> list nat) (s : fam) (u : uf) : option fam :=
  if uf_n u <? length (f_g s) then
    match from_union_find ord (f_g s) u with
    | Some (H, m) => Some (mk_fam (f_maps s ++ [m]) H (if 1 <? length H then N.min (f_cut s) (min_degree H) else f_cut s) (f_ge s))
    | None => None
    end
  else Some s.

(* cactus_mincut.h:93-164 one round *)
Definition fam_round (cf : cfg) (rnd : nat) (ord : nat -> nat -> list nat -> list nat) (s : fam) : option fam :=
  match capforest cf rnd (f_g s) (f_cut s + 1) with
  | None => None
  | Some u0 =>
      match guaranteed (f_cut s) (f_g s) (seq 0 (length (f_g s))) u0 [] with
      | None => None
      | Some (u, es) =>
          match fam_contract (ord 0) (mk_fam (f_maps s) (f_g s) (f_cut s) (f_ge s ++ [(length (f_maps s), es)])) u with
          | None => None
          | Some s1 =>
              match pr_tests12 true (f_g s1) (f_cut s1 + 1) with
              | None => None
              | Some u12 =>
                  match fam_contract (ord 1) s1 u12 with
                  | None => None
                  | Some s2 =>
                      match pr_tests34 true (f_g s2) (f_cut s2 + 1) with
                      | None => None
                      | Some u34 =>
                          match fam_contract (ord 2) s2 u34 with
                          | None => None
                          | Some s3 => Some (mk_fam (f_maps s3) (f_g s3) (f_cut s3) (if (f_cut s3 <? f_cut s)%N then [] else f_ge s3))
                          end
                      end
                  end
              end
          end
      end
  end.

(* cactus_mincut.h:91-165 the loop; the fuel bounds the rounds and selects their random values *)
Fixpoint fam_loop (fuel : nat) (cf : cfg) (rnd : nat -> nat) (ord : nat -> nat -> nat -> list nat -> list nat) (prev : N) (s : fam) : option fam :=
  if (101 * N.of_nat (length (f_g s)) <? 100 * prev)%N then
    match fuel with
    | 0 => None
    | S fuel' =>
        match fam_round cf (rnd fuel) (ord fuel) s with
        | Some s' => fam_loop fuel' cf rnd ord (N.of_nat (length (f_g s))) s'
        | None => None
        end
    end
  else Some s.

(* cactus_mincut.h:69-170 everything before the recursion: the reduced graph with its maps and guaranteed edges, and the value *)
Definition fam_reduce (cf : cfg) (rnd nrnd : nat -> nat) (ord : nat -> nat -> nat -> list nat -> list nat) (nord : nat -> nat -> list nat -> list nat) (start : N) (G : graph) : option fam :=
  match fam_loop (S (length G)) cf rnd ord 4294967295 (mk_fam [] G start []) with
  | None => None
  | Some s =>
      if 1 <? length (f_g s) then
        match noi cf nrnd nord (f_g s) with
        | Some (c, _) => Some (mk_fam (f_maps s) (f_g s) c (f_ge s))
        | None => None
        end
      else Some s
  end.

(* minimum_cut_helpers.h:182-187 a guaranteed edge (v, t): a new vertex of the cactus for v; P: partition indices of graphs[i] *)
Definition loc_leaf (mincut : N) (st : mg * list nat) (e : nat * nat) : option (mg * list nat) :=
  let '(C, P) := st in
  let x := m_last C in
  match nth_error P (snd e), nth_error P (fst e) with
  | Some q, Some _ =>
      match new_edge_order (new_empty_node C) x q mincut with
      | Some C' => Some (C', upd P (fst e) x)
      | None => None
      end
  | _, _ => None
  end.
(* minimum_cut_helpers.h:182-187 *)
Fixpoint loc_leaves (mincut : N) (es : list (nat * nat)) (st : mg * list nat) : option (mg * list nat) :=
  match es with [] => Some st | e :: es' => match loc_leaf mincut st e with Some st' => loc_leaves mincut es' st' | None => None end end.

(* minimum_cut_helpers.h:170-179 the partition indices of a graph become positions in the cactus *)
Fixpoint compose (m P : list nat) : option (list nat) :=
  match m with
  | [] => Some []
  | x :: m' => match nth_error P x, compose m' P with Some y, Some l => Some (y :: l) | _, _ => None end
  end.

(* minimum_cut_helpers.h:168-190 level i = length rmaps and all below it; rmaps and rge are the maps and the guaranteed edges from
   the last to the first *)
Fixpoint locate (mincut : N) (rmaps : list (list nat)) (rge : list (nat * list (nat * nat))) (st : mg * list nat) : option (mg * list nat) :=
  match (match rge with
         | (g, es) :: rge' => if length rmaps =? g then option_map (fun st => (rge', st)) (loc_leaves mincut es st) else Some (rge, st)
         | [] => Some ([], st)
         end) with
  | None => None
  | Some (rge1, (C, P)) =>
      match rmaps with
      | [] => Some (C, P)
      | m :: rmaps' => match compose m P with Some P' => locate mincut rmaps' rge1 (C, P') | None => None end
      end
  end.

(* minimum_cut_helpers.h:194-197 one vertex n of graphs[0] *)
Definition loc_vertex (C : mg) (n p : nat) : mg :=
  mk_mg (m_rows C) (m_deg C) (m_part C) (m_cut C) (upd (m_pos C) n p) (upd (m_cont C) p (nth p (m_cont C) [] ++ [n])) (m_last C) (m_ne C) (m_pc C) (m_orig C).
(* minimum_cut_helpers.h:194-199 *)
Fixpoint loc_vertices (C : mg) (n : nat) (P : list nat) : option mg :=
  match P with
  | [] => Some C
  | p :: P' => if (n <? length (m_pos C)) && (p <? length (m_cont C)) then loc_vertices (loc_vertex C n p) (S n) P' else None
  end.

(* minimum_cut_helpers.h:155-161 with mutable_graph.h:300-305, 324-326: setOriginalNodes, and no vertex contains anything *)
Definition loc_clear (C : mg) (n : nat) : mg :=
  mk_mg (m_rows C) (m_deg C) (m_part C) (m_cut C) (m_pos C ++ repeat 0 (n - length (m_pos C)))
        (map (fun _ => []) (firstn (m_n C) (m_cont C)) ++ skipn (m_n C) (m_cont C)) (m_last C) (m_ne C) (m_pc C) n.

(* minimum_cut_helpers.h:149-199 setVertexLocations with save_cut; n: vertices of graphs[0] *)
Definition set_locations (n : nat) (C : mg) (s : fam) : option mg :=
  let C := loc_clear C n in
  match compose (seq 0 (length (f_g s))) (m_pos C) with
  | None => None
  | Some P =>
      match (if 0 <? length (f_maps s) then locate (f_cut s) (rev (f_maps s)) (rev (f_ge s)) (C, P) else Some (C, P)) with
      | None => None
      | Some (C', P') => loc_vertices C' 0 P'
      end
  end.

(* cactus_mincut.h:66-189 findAllMincuts: the value and the cactus *)
Definition find_all_mincuts (cf : cfg) (rnd nrnd : nat -> nat) (ord : nat -> nat -> nat -> list nat -> list nat) (nord : nat -> nat -> list nat -> list nat) (rec : graph -> N -> option mg)
    (start : N) (G : graph) : option (N * mg) :=
  match fam_reduce cf rnd nrnd ord nord start G with
  | None => None
  | Some s =>
      match rec (f_g s) (f_cut s) with
      | None => None
      | Some C => match set_locations (length G) C s with Some C' => Some (f_cut s, C') | None => None end
      end
  end.
