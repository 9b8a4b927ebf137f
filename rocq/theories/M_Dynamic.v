(* M_Dynamic.v - model of dynamic_mincut.h (class dynamic_mincut) and cactus_path.h (findPath), on the mutable graphs of
   M_Mutable.

   Parameters (they may answer differently at every call, the first argument is the number of the operation):
     all k G c     : cactus.findAllMincuts(G, c), the value and the cactus; c = None stands for UNDEFINED_NODE
     noi k G       : noi_minimum_cut::perform_minimum_cut(G)
     flow k G s t c: pr.solve_max_flow_min_cut(G, {s,t}, 0, false, c, id).first
     rebuild k G s f : recursive_cactus::decrementalRebuild(G, s, f, id)
     ord k l       : the iteration order of the hash set with the elements l

   Simplified: timers, logging, callsOfStaticAlgorithm, the most balanced cut (option find_most_balanced_cut) and the flow
   problem ids are left out.  contractVertexSet (lines 182-244) with its shortcut for one vertex of degree above 100 is
   mutable_graph::contractVertexSet; the shortcut merges the same vertices.  A cached cactus that was taken out of the cache
   keeps its old content in the model; it is not read again.  None: undefined behaviour. *)
From Verif Require Export M_Mutable.

(* cactus_path.h:30-31 entry of parents: parent, root, flag; None: root UNDEFINED_NODE *)
Definition parents := list (option (nat * nat * bool)).
(* cactus_path.h:53, 61 std::get<0>(parents[v]) *)
Definition par_of (p : parents) (v : nat) : nat := match nth v p None with Some (x, _, _) => x | None => 0 end.
(* cactus_path.h:51, 54 std::get<2>(parents[v]); true where nothing was stored (line 31) *)
Definition flag_of (p : parents) (v : nat) : bool := match nth v p None with Some (_, _, b) => b | None => true end.
(* cactus_path.h:41, 44 std::get<1>(parents[v]) *)
Definition root_of (p : parents) (v : nat) : option nat := match nth v p None with Some (_, r, _) => Some r | None => None end.

(* cactus_path.h:48-49, 55, 63 unordered_set::insert *)
Definition set_add (x : nat) (l : list nat) : list nat := if existsb (Nat.eqb x) l then l else x :: l.

(* cactus_path.h:52-57 and 60-65 walk from x up to the root r; None: no root within fuel steps *)
Fixpoint climb (fuel : nat) (p : parents) (r x : nat) (on : bool) (acc : list nat) : option (list nat) :=
  if x =? r then Some acc else
  match fuel with
  | 0 => None
  | S fuel' =>
      let y := par_of p x in
      climb fuel' p r y (flag_of p y) (if on || flag_of p y then set_add y acc else acc)
  end.

(* cactus_path.h:47-66 the path through the edge from n to tgt; the flags of n and tgt are used for the walks to s and to t,
   whichever of the two walks starts at n *)
Definition join_path (p : parents) (s t n tgt : nat) : option (list nat) :=
  let my_s := match root_of p n with Some r => r =? s | None => false end in
  let fuel := length p in
  match climb fuel p s (if my_s then n else tgt) (flag_of p n) (set_add n [tgt]) with
  | None => None
  | Some acc => climb fuel p t (if my_s then tgt else n) (flag_of p tgt) acc
  end.

(* cactus_path.h:42-73 the edges of n: inl the path found, inr the parents and the vertices pushed *)
Fixpoint scan_edges (row : list half) (c : N) (s t n root : nat) (p : parents) (new : list nat)
    : option (list nat) + parents * list nat :=
  match row with
  | [] => inr (p, new)
  | (tgt, w, _) :: row' =>
      match root_of p tgt with
      | Some r => if r =? root then scan_edges row' c s t n root p new else inl (join_path p s t n tgt)
      | None => scan_edges row' c s t n root (upd p tgt (Some (n, root, (w =? c)%N))) (new ++ [tgt])
      end
  end.

(* cactus_path.h:38-74 the search; fuel bounds the number of vertices taken from the queue; None: out of fuel *)
Fixpoint search (fuel : nat) (C : mg) (c : N) (s t : nat) (p : parents) (q : list nat) : option (list nat) :=
  match q with
  | [] => Some []
  | n :: q' =>
      match fuel with
      | 0 => None
      | S fuel' =>
          match root_of p n with
          | None => None
          | Some root =>
              match scan_edges (nth n (m_rows C) []) c s t n root p [] with
              | inl res => res
              | inr (p', new) => search fuel' C c s t p' (q' ++ new)
              end
          end
      end
  end.

(* cactus_path.h:27-78 findPath *)
Definition find_path (C : mg) (s t : nat) (c : N) : option (list nat) :=
  search (S (m_n C)) C c s t (upd (upd (repeat None (m_n C)) s (Some (s, s, true))) t (Some (t, t, true))) [s; t].

(* dynamic_mincut.h:40-45 one index of cachedCactus, cachedInserts and currentlyCaching; no cactus: the null pointer of resize *)
Record centry := mk_ce { e_cactus : option mg; e_ins : list (nat * nat * N); e_on : bool }.

(* dynamic_mincut.h:31-45 the state; d_low = None: UNDEFINED_EDGE *)
Record dyn := mk_dyn { d_g : mg; d_c : mg; d_cut : N; d_num : nat; d_low : option N; d_cache : list centry }.

(* dynamic_mincut.h:37 *)
Definition max_cache_size : nat := 1000.

Section Dynamic.
Context {FL : Type} (all : nat -> mg -> option N -> N * mg) (noi : nat -> mg -> N) (flow : nat -> mg -> nat -> nat -> N -> N * FL)
        (rebuild : nat -> mg -> nat -> N -> FL -> mg) (ord : nat -> list nat -> list nat).

(* dynamic_mincut.h:61-75 initialize *)
Definition d_init (G : mg) : dyn := let '(c, C) := all 0 G None in mk_dyn G C c 0 None [].

(* dynamic_mincut.h:87-91 and 168-171 recomputing everything *)
Definition d_recompute (k : nat) (known : option N) (st : dyn) : dyn :=
  let '(c, C) := all k (d_g st) known in mk_dyn (d_g st) C c (d_num st) (d_low st) (d_cache st).

(* dynamic_mincut.h:137-142 the first cached value above i *)
Fixpoint next_on (cache : list centry) (i : nat) : option nat :=
  match cache with [] => None | e :: cache' => if e_on e then Some i else next_on cache' (S i) end.

(* dynamic_mincut.h:161-179 replaying the inserted edges on the cached cactus C: None undefined, Some None: all contracted,
   Some (Some C): the cactus.  findPath gets current_cut, the value before this call *)
Fixpoint replay (k : nat) (cut : N) (ins : list (nat * nat * N)) (C : mg) : option (option mg) :=
  match ins with
  | [] => Some (Some C)
  | (s, t, _) :: ins' =>
      match nth_error (m_pos C) s, nth_error (m_pos C) t with
      | Some sp, Some tp =>
          if sp =? tp then replay k cut ins' C
          else match find_path C sp tp cut with
               | None => None
               | Some path =>
                   if length path =? m_n C then Some None
                   else match m_contract_set C (ord k path) with None => None | Some C' => replay k cut ins' C' end
               end
      | _, _ => None
      end
  end.

(* dynamic_mincut.h:131-180 buildCactusFromCache.  Appending to the vector that is being iterated (lines 155-157 with
   lowestCachedMincut = mincut) invalidates the iterators: undefined *)
Definition d_build (k : nat) (m : nat) (st : dyn) : option dyn :=
  match nth_error (d_cache st) m with
  | Some (mk_ce (Some C) ins _) =>
      let num := d_num st - 1 in
      let cache := upd (d_cache st) m (mk_ce (Some C) ins false) in
      let cached : option (nat * option N * list centry) :=
        if num =? 0 then Some (num, None, cache)
        else
          let low := match next_on (skipn (S m) cache) (S m) with Some i => Some i | None => option_map N.to_nat (d_low st) end in
          match low with
          | None => None
          | Some l =>
              match nth_error cache l with
              | None => None
              | Some e =>
                  if max_cache_size <? length ins + length (e_ins e) then Some (0, None, firstn (S m) cache)
                  else if (l =? m) && (0 <? length ins) then None
                  else Some (num, Some (N.of_nat l), upd cache l (mk_ce (e_cactus e) (e_ins e ++ ins) (e_on e)))
              end
          end in
      match cached with
      | None => None
      | Some (num', low', cache') =>
          match replay k (d_cut st) ins C with
          | None => None
          | Some None => Some (d_recompute k None (mk_dyn (d_g st) (d_c st) (d_cut st) num' low' cache'))
          | Some (Some C') => Some (mk_dyn (d_g st) C' (N.of_nat m) num' low' cache')
          end
      end
  | _ => None
  end.

(* dynamic_mincut.h:76-93 checkCacheAndRecompute; the size compared with the cactus is the one of the outer vector *)
Definition d_check (k : nat) (st : dyn) : option dyn :=
  match d_low st with
  | None => Some (d_recompute k None st)
  | Some l =>
      let m := noi k (d_g st) in
      if (m =? l)%N then
        match nth_error (d_cache st) (N.to_nat m) with
        | Some (mk_ce (Some C) _ _) =>
            if 2 * length (d_cache st) <? m_n C then d_build k (N.to_nat m) st else Some (d_recompute k (Some m) st)
        | _ => None
        end
      else Some (d_recompute k (Some m) st)
  end.

(* dynamic_mincut.h:349-367 cacheEdge *)
Definition cache_edge (s t : nat) (w : N) (st : dyn) : option dyn :=
  if d_num st =? 0 then Some st
  else match d_low st with
       | None => None
       | Some l =>
           match nth_error (d_cache st) (N.to_nat l) with
           | None => None
           | Some e =>
               if length (e_ins e) <=? max_cache_size
               then Some (mk_dyn (d_g st) (d_c st) (d_cut st) (d_num st) (d_low st)
                                 (upd (d_cache st) (N.to_nat l) (mk_ce (e_cactus e) (e_ins e ++ [(s, t, w)]) (e_on e))))
               else
                 let cache := upd (d_cache st) (N.to_nat l) (mk_ce (e_cactus e) (e_ins e) false) in
                 Some (mk_dyn (d_g st) (d_c st) (d_cut st) 0 None
                              (if d_num st - 1 =? 0 then cache else firstn (S (N.to_nat l)) cache))
           end
       end.

(* dynamic_mincut.h:332-347 putIntoCache of the current cactus *)
Definition put_cache (st : dyn) : dyn :=
  let i := N.to_nat (d_cut st) in
  let low := match d_low st with Some l => if (d_cut st <? l)%N then d_cut st else l | None => d_cut st end in
  let cache := d_cache st ++ repeat (mk_ce None [] false) (S i - length (d_cache st)) in
  mk_dyn (d_g st) (d_c st) (d_cut st) (S (d_num st)) (Some low) (upd cache i (mk_ce (Some (d_c st)) [] true)).

(* dynamic_mincut.h:95-129 addEdge *)
Definition d_add (k : nat) (st : dyn) (s t : nat) (w : N) : option dyn :=
  match nth_error (m_pos (d_c st)) s, nth_error (m_pos (d_c st)) t with
  | Some sp, Some tp =>
      match new_edge_order (d_g st) s t w with
      | None => None
      | Some G =>
          match cache_edge s t w (mk_dyn G (d_c st) (d_cut st) (d_num st) (d_low st) (d_cache st)) with
          | None => None
          | Some st1 =>
              if sp =? tp then Some st1
              else if (d_cut st1 =? 0)%N then
                if m_n (d_c st1) =? 2 then d_check k st1
                else match m_contract_set (d_c st1) (ord k [sp; tp]) with
                     | None => None
                     | Some C => Some (mk_dyn (d_g st1) C (d_cut st1) (d_num st1) (d_low st1) (d_cache st1))
                     end
              else match find_path (d_c st1) sp tp (d_cut st1) with
                   | None => None
                   | Some path =>
                       if length path =? m_n (d_c st1) then d_check k st1
                       else match m_contract_set (d_c st1) (ord k path) with
                            | None => None
                            | Some C => Some (mk_dyn (d_g st1) C (d_cut st1) (d_num st1) (d_low st1) (d_cache st1))
                            end
                   end
          end
      end
  | _, _ => None
  end.

(* dynamic_mincut.h:248-254 the first edge of the list to t *)
Fixpoint edge_to (row : list half) (t e : nat) : option (nat * N) :=
  match row with [] => None | (x, w, _) :: row' => if x =? t then Some (e, w) else edge_to row' t (S e) end.

(* dynamic_mincut.h:246-314 removeEdge *)
Definition d_remove (k : nat) (st : dyn) (s t : nat) : option dyn :=
  match edge_to (nth s (m_rows (d_g st)) []) t 0 with
  | None => Some st
  | Some (e, w) =>
      match m_delete_edge (d_g st) s e, nth_error (m_pos (d_c st)) s, nth_error (m_pos (d_c st)) t with
      | Some G, Some sp, Some tp =>
          let st1 := mk_dyn G (d_c st) (d_cut st) (d_num st) (d_low st) (d_cache st) in
          if (w =? 0)%N || (d_cut st =? 0)%N then Some st1
          else
            let '(f, fl) := flow k G s t (d_cut st) in
            if negb (sp =? tp) || (f <? d_cut st)%N then
              let st2 := put_cache st1 in
              Some (mk_dyn G (rebuild k G s f fl) f (d_num st2) (d_low st2) (d_cache st2))
            else Some st1
      | _, _, _ => None
      end
  end.

(* a call of addEdge or removeEdge *)
Inductive dop := DAdd (s t : nat) (w : N) | DRem (s t : nat).
Definition d_step (k : nat) (st : dyn) (o : dop) : option dyn :=
  match o with DAdd s t w => d_add k st s t w | DRem s t => d_remove k st s t end.

(* a sequence of calls, numbered from k *)
Fixpoint d_run (k : nat) (st : dyn) (ops : list dop) : option dyn :=
  match ops with
  | [] => Some st
  | o :: ops' => match d_step k st o with None => None | Some st' => d_run (S k) st' ops' end
  end.
End Dynamic.
