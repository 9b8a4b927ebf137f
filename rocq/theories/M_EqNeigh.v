(* M_EqNeigh.v - model of lib/algorithms/misc/equal_neighborhood.h on the mutable graph.  ts: positions of the terminals of
   the problem.  active: the vertices n with active[containedVertices(n)[0]].  nd: configuration neighborhood_degrees.
   hash: std::hash<NodeID>, which the C++ standard leaves to the implementation.  srt: std::sort with the
   comparison [pairs] of the first components, which leaves the order of equal ones open.  size_t is 64 bits wide;
   weights are ideal.  None: access out of range. *)
From Verif Require Export M_Kernel.

(* equal_neighborhood.h:26-30 hash_combine *)
Definition hash_combine (hash : nat -> N) (seed : N) (v : nat) : N :=
  N.lxor seed ((hash v + 2654435769 + N.shiftl seed 6 + N.shiftr seed 2) mod 2 ^ 64)%N.

(* std::sort of node ids, equal_neighborhood.h:69: the ascending list *)
Fixpoint ins_asc (x : nat) (l : list nat) : list nat :=
  match l with [] => [x] | y :: l' => if x <=? y then x :: l else y :: ins_asc x l' end.
Definition sort_asc (l : list nat) : list nat := fold_right ins_asc [] l.

(* equal_neighborhood.h:64-73 the seed of a vertex with the given edges *)
Definition en_seed (hash : nat -> N) (row : list half) : N :=
  fold_left (hash_combine hash) (sort_asc (map (fun h : half => fst (fst h)) row)) 0%N.

(* getEdge for all edges: equal_neighborhood.h:86-94, 150-162 *)
Definition en_row (row : list half) : list (nat * N) := map fst row.

(* equal_neighborhood.h:98-104, 166-172 the comparison; only the length of the first list is looked at *)
Fixpoint en_same (a b : list (nat * N)) : option bool :=
  match a, b with
  | [], _ => Some true
  | _ :: _, [] => None
  | (t, w) :: a', (t', w') :: b' => if (t =? t') && (w =? w')%N then en_same a' b' else Some false
  end.

(* equal_neighborhood.h:52-63 (also 127-138): which vertices are looked at *)
Definition en_cand (G : mg) (ts : list nat) (active : nat -> bool) (nd n : nat) : bool :=
  active n && negb (isterm ts n) && (length (nth n (m_rows G) []) <=? nd) && (0 <? length (nth n (m_rows G) [])).

(* equal_neighborhood.h:52-113 one vertex; results maps a seed to the first vertex that had it: nothing is added to a seed
   that is present *)
Definition en_non_node (hash : nat -> N) (srt : list (nat * N) -> list (nat * N)) (G : mg) (ts : list nat) (active : nat -> bool) (nd : nat)
    (st : list (N * nat) * uf) (n : nat) : option (list (N * nat) * uf) :=
  let '(results, u) := st in
  if en_cand G ts active nd n then
    let seed := en_seed hash (nth n (m_rows G) []) in
    match find (fun p => (fst p =? seed)%N) results with
    | Some (_, o) =>
        if isterm ts o then Some st
        else
          match en_same (srt (en_row (nth n (m_rows G) []))) (srt (en_row (nth o (m_rows G) []))) with
          | None => None
          | Some true => option_map (fun r => (results, fst r)) (uf_union u n o)
          | Some false => Some st
          end
    | None => Some ((seed, n) :: results, u)
    end
  else Some st.

(* equal_neighborhood.h:41-115 findEqualNeighborhoodsNonNeighbors *)
Fixpoint en_non (hash : nat -> N) (srt : list (nat * N) -> list (nat * N)) (G : mg) (ts : list nat) (active : nat -> bool) (nd : nat)
    (ns : list nat) (st : list (N * nat) * uf) : option (list (N * nat) * uf) :=
  match ns with
  | [] => Some st
  | n :: ns' => match en_non_node hash srt G ts active nd st n with Some st' => en_non hash srt G ts active nd ns' st' | None => None end
  end.

(* equal_neighborhood.h:139-178 the edges of n *)
Fixpoint en_nb_edges (srt : list (nat * N) -> list (nat * N)) (G : mg) (ts : list nat) (n : nat) (es : list half) (u : uf) : option uf :=
  match es with
  | [] => Some u
  | (o, _, _) :: es' =>
      let rn := nth n (m_rows G) [] in
      let ro := nth o (m_rows G) [] in
      if negb (isterm ts o) && (length rn =? length ro) && (nth n (m_deg G) 0 =? nth o (m_deg G) 0)%N then
        match en_same (srt (filter (fun e => negb (fst e =? o)) (en_row rn))) (srt (filter (fun e => negb (fst e =? n)) (en_row ro))) with
        | None => None
        | Some true => match uf_union u n o with Some (u', _) => en_nb_edges srt G ts n es' u' | None => None end
        | Some false => en_nb_edges srt G ts n es' u
        end
      else en_nb_edges srt G ts n es' u
  end.

(* equal_neighborhood.h:117-181 findEqualNeighborhoodsNeighbors *)
Fixpoint en_nb (srt : list (nat * N) -> list (nat * N)) (G : mg) (ts : list nat) (active : nat -> bool) (nd : nat) (ns : list nat) (u : uf) : option uf :=
  match ns with
  | [] => Some u
  | n :: ns' =>
      match (if en_cand G ts active nd n then en_nb_edges srt G ts n (nth n (m_rows G) []) u else Some u) with
      | Some u' => en_nb srt G ts active nd ns' u'
      | None => None
      end
  end.

(* equal_neighborhood.h:183-190 findEqualNeighborhoods of a new object *)
Definition equal_neighborhoods (hash : nat -> N) (srt : list (nat * N) -> list (nat * N)) (G : mg) (ts : list nat) (active : nat -> bool) (nd : nat) : option uf :=
  match en_non hash srt G ts active nd (seq 0 (m_n G)) ([], uf_init (m_n G)) with
  | Some (_, u) => en_nb srt G ts active nd (seq 0 (m_n G)) u
  | None => None
  end.
