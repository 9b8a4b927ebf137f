(* M_MutableIO.v - model of the conversions and the serialisation of lib/data_structure/mutable_graph.h. *)
From Verif Require Import M_Graph M_Contract.
From Verif Require Export M_Mutable.

(* mutable_graph.h:811-818 first edge e2 of the row with target t *)
Fixpoint find_target (row : list half) (t k : nat) : option (nat * N) :=
  match row with
  | [] => None
  | (t', w, _) :: row' => if t' =? t then Some (k, w) else find_target row' t (S k)
  end.

(* mutable_graph.h:804-823 the edges of node n; last is last_incident *)
Fixpoint from_ga_edges (n : nat) (es : list (nat * N)) (last : list (option nat)) (M : mg) : option (list (option nat) * mg) :=
  match es with
  | [] => Some (last, M)
  | (t, w) :: es' =>
      if t <? length last then
        match nth t last None with
        | Some l =>
            if l =? n then
              match find_target (nth n (m_rows M) []) t 0 with
              | Some (e2, w0) =>
                  match m_set_weight M n e2 (w0 + w)%N with
                  | Some M' => from_ga_edges n es' last M'
                  | None => None
                  end
              | None => from_ga_edges n es' last M
              end
            else
              match m_new_edge M n t w with
              | Some M' => from_ga_edges n es' (upd last t (Some n)) M'
              | None => None
              end
        | None =>
            match m_new_edge M n t w with
            | Some M' => from_ga_edges n es' (upd last t (Some n)) M'
            | None => None
            end
        end
      else None
  end.

(* mutable_graph.h:802-824 the nodes *)
Fixpoint from_ga_nodes (g : graph) (n : nat) (last : list (option nat)) (M : mg) : option mg :=
  match g with
  | [] => Some M
  | es :: g' =>
      match from_ga_edges n es last (new_node M) with
      | Some (last', M') => from_ga_nodes g' (S n) last' M'
      | None => None
      end
  end.

(* mutable_graph.h:797-826 from_graph_access, on the adjacency lists of the static graph *)
Definition from_graph_access (g : graph) : option mg :=
  option_map m_finish (from_ga_nodes g 0 (repeat None (length g)) (start_construction (length g))).

(* mutable_graph.h:828-840 to_graph_access, through the construction calls of graph_access *)
Definition to_graph_access (M : mg) : option csr :=
  build (m_n M) (N.to_nat (m_ne M)) (script_of (adj (m_rows M))).

(* definitions.h: UNDEFINED_EDGE, the maximum of uint64_t *)
Definition undefined_edge : N := 18446744073709551615%N.

(* mutable_graph.h:890-904 one node: marker, then target and weight of the edges to larger nodes *)
Definition serial_row (ne : N) (n : nat) (row : list half) : list N :=
  (ne + N.of_nat n)%N :: flat_map (fun h => if n <? fst (fst h) then [N.of_nat (fst (fst h)); snd (fst h)] else []) row.

(* mutable_graph.h:889-905 all nodes from number n on *)
Fixpoint serial_rows (ne : N) (n : nat) (rows : list (list half)) : list N :=
  match rows with [] => [] | row :: rows' => serial_row ne n row ++ serial_rows ne (S n) rows' end.

(* mutable_graph.h:881-916 serialize; the vector has the size of line 882, writing behind it is None *)
Definition serialize (M : mg) : option (list N) :=
  let out := [N.of_nat (m_n M); m_ne M; N.of_nat (m_pc M); N.of_nat (m_orig M)] ++ serial_rows (m_ne M) 0 (m_rows M)
             ++ [undefined_edge] ++ map N.of_nat (m_part M) ++ map N.of_nat (m_pos M) in
  let size := 5 + 2 * m_n M + N.to_nat (m_ne M) + m_orig M in
  if length out <=? size then Some (out ++ repeat 0%N (size - length out)) else None.

(* mutable_graph.h:852-863 the loop over edges; v is the unread rest of the vector *)
Fixpoint deserial_edges (fuel : nat) (nodes ne : N) (n : N) (v : list N) (M : mg) : option (list N * mg) :=
  match fuel with
  | 0 => None
  | S fuel' =>
      if (n <? nodes)%N then
        match v with
        | [] => None
        | next :: v1 =>
            if (ne <=? next)%N then
              if (next =? undefined_edge)%N then Some (v1, M)
              else deserial_edges fuel' nodes ne (next - ne) v1 M
            else
              match v1 with
              | [] => None
              | w :: v2 =>
                  match m_new_edge M (N.to_nat n) (N.to_nat next) w with
                  | Some M' => deserial_edges fuel' nodes ne n v2 M'
                  | None => None
                  end
              end
        end
      else Some (v, M)
  end.

(* mutable_graph.h:867-868 setPartitionIndex(i, v[deserial++]) for cnt nodes from i on; the groups are emptied *)
Fixpoint deserial_parts (cnt i : nat) (v : list N) (part : list nat) : option (list N * list nat) :=
  match cnt with
  | 0 => Some (v, part)
  | S cnt' =>
      match v with
      | [] => None
      | p :: v' => if i <? length part then deserial_parts cnt' (S i) v' (upd part i (N.to_nat p)) else None
      end
  end.

(* mutable_graph.h:871-875 positions and groups of the original nodes i, i+1, ... *)
Fixpoint deserial_pos (cnt i : nat) (v : list N) (pos : list nat) (cont : list (list nat)) : option (list nat * list (list nat)) :=
  match cnt with
  | 0 => Some (pos, cont)
  | S cnt' =>
      match v with
      | [] => None
      | p :: v' =>
          if (i <? length pos) && (N.to_nat p <? length cont) then
            deserial_pos cnt' (S i) v' (upd pos i (N.to_nat p)) (upd cont (N.to_nat p) (nth (N.to_nat p) cont [] ++ [i]))
          else None
      end
  end.

(* mutable_graph.h:842-879 deserialize *)
Definition deserialize (v : list N) : option mg :=
  match v with
  | nodes :: ne :: pc :: orig :: v0 =>
      let n := N.to_nat nodes in
      let o := N.to_nat orig in
      let G0 := start_construction n in
      match deserial_edges (S (length v)) nodes ne 0 v0 G0 with
      | None => None
      | Some (v1, G1) =>
          match deserial_parts n 0 v1 (m_part G1) with
          | None => None
          | Some (v2, part) =>
              (* setOriginalNodes (mutable_graph.h:300-305) has enlarged current_position if needed *)
              match deserial_pos o 0 v2 (m_pos G1 ++ repeat 0 (o - length (m_pos G1))) (repeat [] n) with
              | None => None
              | Some (pos, cont) =>
                  Some (m_finish (mk_mg (m_rows G1) (m_deg G1) part (m_cut G1) pos cont (m_last G1) (m_ne G1) (N.to_nat pc) o))
              end
          end
      end
  | _ => None
  end.
