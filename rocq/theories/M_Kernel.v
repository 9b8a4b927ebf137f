(* M_Kernel.v - model of the local rules of lib/algorithms/multicut/kernelization_criteria.h and of
   graph_contraction.h on the mutable graph.  ts: positions of the terminals of the problem.  active: the
   vertices n with active[containedVertices(n)[0]].  None: out-of-range access, exit or undefined.
   Weights are unbounded. *)
From Verif Require Export M_Mutable M_UnionFind.

(* kernelization_criteria.h:176-180 the vector terminals *)
Definition isterm (ts : list nat) (v : nat) : bool := existsb (Nat.eqb v) ts.

(* kernelization_criteria.h:186-203 a vertex n of degree 1; 205-211 of degree 2 *)
Definition low_node (G : mg) (ts : list nat) (u : uf) (n : nat) : option uf :=
  if isterm ts n then Some u
  else
    match nth n (m_rows G) [] with
    | [(tgt, _, reverse)] =>
        match uf_union u n tgt with
        | None => None
        | Some (u1, _) =>
            if length (nth tgt (m_rows G) []) =? 3 then
              match slot (m_rows G) tgt (if reverse =? 0 then 1 else 0), slot (m_rows G) tgt (if reverse <=? 1 then 2 else 1) with
              | Some (n1, e1, _), Some (n2, e2, _) =>
                  option_map fst (uf_union u1 tgt (if (e2 <=? e1)%N then n1 else n2))
              | _, _ => None
              end
            else Some u1
        end
    | [(n1, e1, _); (n2, e2, _)] => option_map fst (uf_union u n (if (e2 <=? e1)%N then n1 else n2))
    | _ => Some u
    end.

(* kernelization_criteria.h:182-212 *)
Fixpoint low_nodes (G : mg) (ts : list nat) (ns : list nat) (u : uf) : option uf :=
  match ns with [] => Some u | n :: ns' => match low_node G ts u n with Some u' => low_nodes G ts ns' u' | None => None end end.

(* kernelization_criteria.h:172-214 lowDegreeContraction *)
Definition low_degree (G : mg) (ts : list nat) : option uf := low_nodes G ts (seq 0 (m_n G)) (uf_init (m_n G)).

(* kernelization_criteria.h:243-267 the edges of a vertex of weighted degree dn.  inl t: contraction with t
   and break; inr: nonterminal_weight, maxwgt, maxterm, secondwgt *)
Fixpoint high_scan (row : list half) (dn : N) (ts : list nat) (nonterm maxw : N) (maxt : nat) (second : N)
  : nat + (N * N * nat * N) :=
  match row with
  | [] => inr (nonterm, maxw, maxt, second)
  | (t, w, _) :: row' =>
      let '(maxw', maxt', second') :=
        if isterm ts t then
          if (maxw <? w)%N then (w, t, maxw) else if (second <? w)%N then (maxw, maxt, w) else (maxw, maxt, second)
        else (maxw, maxt, second) in
      if (dn <=? w * 2)%N then inl t
      else high_scan row' dn ts (if isterm ts t then nonterm else (nonterm + w)%N) maxw' maxt' second'
  end.

(* kernelization_criteria.h:227-275 *)
Definition high_node (G : mg) (ts : list nat) (active : nat -> bool) (u : uf) (n : nat) : option uf :=
  if negb (active n) then Some u
  else if isterm ts n then Some u
  else
    match uf_find u n with
    | None => None
    | Some (u1, r) =>
        if negb (r =? n) then Some u1
        else
          match high_scan (nth n (m_rows G) []) (nth n (m_deg G) 0%N) ts 0 0 0 0 with
          | inl t => option_map fst (uf_union u1 n t)
          | inr (nonterm, maxw, maxt, second) =>
              if (nonterm + second <? maxw)%N then option_map fst (uf_union u1 n maxt) else Some u1
          end
    end.

(* kernelization_criteria.h:227-275 *)
Fixpoint high_nodes (G : mg) (ts : list nat) (active : nat -> bool) (ns : list nat) (u : uf) : option uf :=
  match ns with
  | [] => Some u
  | n :: ns' => match high_node G ts active u n with Some u' => high_nodes G ts active ns' u' | None => None end
  end.

(* kernelization_criteria.h:215-279 highDegreeContraction *)
Definition high_degree (G : mg) (ts : list nat) (active : nat -> bool) : option uf :=
  high_nodes G ts active (seq 0 (m_n G)) (uf_init (m_n G)).

(* kernelization_criteria.h:295-304 the marks of the later neighbours *)
Fixpoint tri_mark (row : list half) (v1 k : nat) (mk : list (option nat)) : list (option nat) :=
  match row with
  | [] => mk
  | (t, _, _) :: row' => tri_mark row' v1 (S k) (if v1 <? t then upd mk t (Some k) else mk)
  end.

(* kernelization_criteria.h:306-309 *)
Definition max_weight (row : list half) : N := fold_left (fun m (h : half) => N.max m (snd (fst h))) row 0%N.

(* cond && uf.Find(v) == v, as in kernelization_criteria.h:345-356 *)
Definition find_self (u : uf) (cond : bool) (v : nat) : option (uf * bool) :=
  if cond then match uf_find u v with Some (u', r) => Some (u', r =? v) | None => None end else Some (u, false).

(* if (cond) uf.Union(a, b), as in kernelization_criteria.h:358-365 *)
Definition union_if (u : uf) (cond : bool) (a b : nat) : option uf :=
  if cond then option_map fst (uf_union u a b) else Some u.

(* kernelization_criteria.h:325-371 the edges of v2; w1 = weight_e1; done is never set in the code *)
Fixpoint tri_third (row : list half) (G : mg) (ts : list nat) (v1 v2 : nat) (w1 : N) (mk : list (option nat)) (u : uf) : option uf :=
  match row with
  | [] => Some u
  | (v3, w2, _) :: row' =>
      match (if (v2 <? v3) && negb (isterm ts v3) then nth v3 mk None else None) with
      | None => tri_third row' G ts v1 v2 w1 mk u
      | Some e3 =>
          match slot (m_rows G) v1 e3 with
          | None => None
          | Some (t3, w3, _) =>
              if negb (t3 =? v3) then None
              else
                match find_self u (nth v1 (m_deg G) 0 <=? (w1 + w3) * 2)%N v1 with
                | None => None
                | Some (u1, h1) =>
                    match find_self u1 (nth v2 (m_deg G) 0 <=? (w1 + w2) * 2)%N v2 with
                    | None => None
                    | Some (u2, h2) =>
                        match find_self u2 (nth v3 (m_deg G) 0 <=? (w2 + w3) * 2)%N v3 with
                        | None => None
                        | Some (u3, h3) =>
                            match union_if u3 (h1 && h2) v1 v2 with
                            | None => None
                            | Some u4 =>
                                match union_if u4 (h1 && h3) v1 v3 with
                                | None => None
                                | Some u5 =>
                                    match union_if u5 (h2 && h3) v2 v3 with
                                    | None => None
                                    | Some u6 => tri_third row' G ts v1 v2 w1 mk u6
                                    end
                                end
                            end
                        end
                    end
                end
          end
      end
  end.

(* kernelization_criteria.h:322-375 the edges e1 of v1 *)
Fixpoint tri_second (row : list half) (G : mg) (ts : list nat) (v1 : nat) (mk : list (option nat)) (u : uf)
  : option (list (option nat) * uf) :=
  match row with
  | [] => Some (mk, u)
  | (v2, w1, _) :: row' =>
      if (v1 <? v2) && negb (isterm ts v2) then
        match tri_third (nth v2 (m_rows G) []) G ts v1 v2 w1 mk u with
        | None => None
        | Some u' => tri_second row' G ts v1 (upd mk v2 None) u'
        end
      else tri_second row' G ts v1 mk u
  end.

(* kernelization_criteria.h:294-377 one vertex *)
Definition tri_node (G : mg) (ts : list nat) (active : nat -> bool) (st : list (option nat) * uf) (v1 : nat)
  : option (list (option nat) * uf) :=
  let '(mk, u) := st in
  let row := nth v1 (m_rows G) [] in
  if negb (active v1) || isterm ts v1 then Some st
  else
    let mk1 := tri_mark row v1 0 mk in
    if (max_weight row * 4 <? nth v1 (m_deg G) 0)%N
    then Some (fold_left (fun m (h : half) => upd m (fst (fst h)) None) row mk1, u)
    else tri_second row G ts v1 mk1 u.

(* kernelization_criteria.h:294-378 *)
Fixpoint tri_nodes (G : mg) (ts : list nat) (active : nat -> bool) (ns : list nat) (st : list (option nat) * uf)
  : option (list (option nat) * uf) :=
  match ns with [] => Some st | v :: ns' => match tri_node G ts active st v with Some st' => tri_nodes G ts active ns' st' | None => None end end.

(* kernelization_criteria.h:281-380 triangleDetection *)
Definition triangles (G : mg) (ts : list nat) (active : nat -> bool) : option uf :=
  option_map snd (tri_nodes G ts active (seq 0 (m_n G)) (repeat None (m_n G), uf_init (m_n G))).

(* kernelization_criteria.h:124-135 the classes of the union-find, in the order of their first vertex; each
   class as the list of the first contained vertices.  cls: (root, class) *)
Fixpoint add_class (r x : nat) (cls : list (nat * list nat)) : list (nat * list nat) :=
  match cls with
  | [] => [(r, [x])]
  | (r', xs) :: cls' => if r' =? r then (r', xs ++ [x]) :: cls' else (r', xs) :: add_class r x cls'
  end.

(* kernelization_criteria.h:128-135 *)
Fixpoint uf_classes (G : mg) (ns : list nat) (u : uf) (cls : list (nat * list nat)) : option (list (nat * list nat)) :=
  match ns with
  | [] => Some cls
  | n :: ns' =>
      match uf_find u n, nth n (m_cont G) [] with
      | Some (u', r), x :: _ => uf_classes G ns' u' (add_class r x cls)
      | _, _ => None
      end
  end.

(* kernelization_criteria.h:139-144 contraction of one class of originals; ord: iteration order of the hash
   set that holds the given positions *)
Definition contract_class (ord : list nat -> list nat) (G : mg) (xs : list nat) : option mg :=
  match xs with
  | [] | [_] => Some G
  | _ => m_contract_set G (ord (nodup Nat.eq_dec (map (fun x => nth x (m_pos G) 0) xs)))
  end.

(* kernelization_criteria.h:137-161 *)
Fixpoint contract_classes (ord : list nat -> list nat) (cls : list (nat * list nat)) (G : mg) : option mg :=
  match cls with
  | [] => Some G
  | (_, xs) :: cls' => match contract_class ord G xs with Some G' => contract_classes ord cls' G' | None => None end
  end.

(* kernelization_criteria.h:112-161 the contraction part of contractIfImproved *)
Definition contract_if_improved (ord : list nat -> list nat) (u : uf) (G : mg) : option mg :=
  if cnt u <? m_n G then
    match uf_classes G (seq 0 (m_n G)) u [] with
    | Some cls => contract_classes ord cls G
    | None => None
    end
  else Some G.

(* graph_contraction.h:89-107 the edges number k-1, ..., 0 of terminal term *)
Fixpoint del_row (k : nat) (ts : list nat) (term : nat) (st : mg * N) : option (mg * N) :=
  match k with
  | 0 => Some st
  | S e =>
      match slot (m_rows (fst st)) term e with
      | None => None
      | Some (tgt, w, _) =>
          if isterm ts tgt then
            match m_delete_edge (fst st) term e with
            | Some G' => del_row e ts term (G', (snd st + w)%N)
            | None => None
            end
          else del_row e ts term st
      end
  end.

(* graph_contraction.h:83-108 *)
Fixpoint del_terms (us ts : list nat) (st : mg * N) : option (mg * N) :=
  match us with
  | [] => Some st
  | t :: us' =>
      if t <? m_n (fst st) then
        match del_row (length (nth t (m_rows (fst st)) [])) ts t st with
        | Some st' => del_terms us' ts st'
        | None => None
        end
      else None
  end.

(* graph_contraction.h:70-110 deleteTermEdges between the two calls of setTerminals: the new graph and the
   weight added to deleted_weight *)
Definition del_term_edges (G : mg) (ts : list nat) : option (mg * N) := del_terms ts ts (G, 0%N).

(* multicut_problem.h:79-85 mapped *)
Fixpoint mapped (maps : list (list nat)) (n : nat) : option nat :=
  match maps with [] => Some n | m :: maps' => match nth_error m n with Some n' => mapped maps' n' | None => None end end.

(* graph_contraction.h:112-132 setTerminals: (position, number of the original terminal) of the terminals
   that have an edge; the flags invalid_flow are not modelled *)
Fixpoint set_terminals (G : mg) (maps : list (list nat)) (origs : list nat) (i : nat) : option (list (nat * nat)) :=
  match origs with
  | [] => Some []
  | o :: origs' =>
      match mapped maps o with
      | None => None
      | Some o' =>
          match nth_error (m_pos G) o' with
          | None => None
          | Some v =>
              if m_n G <=? v then None
              else
                match set_terminals G maps origs' (S i) with
                | None => None
                | Some rest => Some (if 0 <? length (nth v (m_rows G) []) then (v, i) :: rest else rest)
                end
          end
      end
  end.

(* One round of a rule in kernelization (kernelization_criteria.h:54-61): setTerminals and the rule itself,
   then contractIfImproved (112-170) with setTerminals and deleteTermEdges.  The new graph, the terminals and
   the weight added to deleted_weight *)
Definition rule_step (rule : mg -> list nat -> option uf) (ord : list nat -> list nat) (maps : list (list nat)) (origs : list nat) (G : mg)
  : option (mg * list (nat * nat) * N) :=
  match set_terminals G maps origs 0 with
  | None => None
  | Some ts =>
      match rule G (map fst ts) with
      | None => None
      | Some u =>
          if cnt u <? m_n G then
            match contract_if_improved ord u G with
            | None => None
            | Some G1 =>
                match set_terminals G1 maps origs 0 with
                | None => None
                | Some ts1 =>
                    match del_term_edges G1 (map fst ts1) with
                    | None => None
                    | Some (G2, w) =>
                        match set_terminals G2 maps origs 0 with
                        | None => None
                        | Some ts2 => Some (G2, ts2, w)
                        end
                    end
                end
            end
          else Some (G, ts, 0%N)
      end
  end.

(* measurements.h:67-73 the edges of a vertex of block b *)
Fixpoint fv_row (row : list half) (sol : list nat) (b : nat) (acc : N) : option N :=
  match row with
  | [] => Some acc
  | (t, w, _) :: row' =>
      match nth_error sol t with
      | None => None
      | Some b' => fv_row row' sol b (if b =? b' then acc else (acc + w)%N)
      end
  end.

(* measurements.h:65-75 *)
Fixpoint fv_nodes (rows : list (list half)) (n : nat) (sol sizes : list nat) (acc : N) : option (list nat * N) :=
  match rows with
  | [] => Some (sizes, acc)
  | row :: rows' =>
      match nth_error sol n with
      | None => None
      | Some b =>
          if b <? length sizes then
            match fv_row row sol b acc with
            | None => None
            | Some acc' => fv_nodes rows' (S n) sol (upd sizes b (S (nth b sizes 0))) acc'
            end
          else None
      end
  end.

(* measurements.h:61-97 flowValue; None also for exit(1) *)
Definition flow_value (G : mg) (origs sol : list nat) : option N :=
  match fv_nodes (m_rows G) 0 sol (repeat 0 (length origs)) 0%N with
  | None => None
  | Some (sizes, total) =>
      if forallb (fun t => t <? length sol) origs &&
         forallb (fun i => negb (nth i sizes 0 =? 0) && (length (filter (fun t => nth t sol 0 =? i) origs) =? 1)) (seq 0 (length sizes))
      then Some (total / 2)%N
      else None
  end.
