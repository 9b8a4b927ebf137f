(* M_LocalSearch.v - model of lib/algorithms/multicut/local_search.h.  R: rows of original_graph; fixed:
   fixed_vertex; kt: original_terminals.size(); nt: configuration num_terminals.  None: out-of-range access,
   exit(1), or fuel used up.  movedToNewBlock and noImprovement are written but never read and are left out.
   Weights are unbounded; the sums of type FlowType and EdgeWeight that may be negative are in Z. *)
From Verif Require Export M_PushRelabel M_Mutable.

(* the random and timing dependent decisions of one call of improveSolution *)
Record choices := mk_ch {
  c_perm1 : nat -> list nat;                           (* local_search.h:229 in the rounds of the loop 322-331 *)
  c_perm2 : nat -> list nat;                           (* local_search.h:229 in the rounds of the loop 349-358 *)
  c_late0 : nat -> bool;                               (* local_search.h:163 *)
  c_late : nat -> nat -> bool;                         (* local_search.h:207 *)
  c_shuf : nat -> list (nat * nat) -> list (nat * nat);(* local_search.h:200 *)
  c_ord0 : nat -> nat -> list (nat * N) -> list (nat * N); (* order of the hash map, local_search.h:111 *)
  c_ord1 : nat -> nat -> list (nat * N) -> list (nat * N); (* local_search.h:114 *)
  c_pick : nat -> nat -> nat -> list nat -> nat;       (* push_relabel.h: the queue of the run at local_search.h:121 *)
  c_gl : nat -> nat -> nat -> bool }.                  (* push_relabel.h: global relabelings of that run *)

Definition fixed_at (fixed : list bool) (v : nat) : bool := nth v fixed false. (* local_search.h:28 fixed_vertex[v] *)
Definition block_of (sol : list nat) (v : nat) : nat := nth v sol 0.           (* local_search.h:29 ( *sol)[v] *)

(* ** gainLocalSearch *)

(* local_search.h:223-227 current_solution, inBoundary, nextBest (None: UNDEFINED_NODE), improvement *)
Record gls := mk_gls { g_sol : list nat; g_bnd : list bool; g_nb : list (option (nat * Z)); g_imp : Z }.

(* local_search.h:236-243 blockwgt *)
Fixpoint block_weights (row : list half) (sol : list nat) (bw : list N) : option (list N) :=
  match row with
  | [] => Some bw
  | (t, w, _) :: row' =>
      let b := block_of sol t in
      if b <? length bw then block_weights row' sol (upd bw b (nth b bw 0 + w)%N) else None
  end.

(* local_search.h:246-255 maxBlockID and maxBlockWgt over the blocks i, i+1, ... *)
Fixpoint max_block (bw : list N) (i own : nat) (id : nat) (w : N) : nat * N :=
  match bw with
  | [] => (id, w)
  | x :: bw' =>
      if negb (i =? own) && (w <? x)%N then max_block bw' (S i) own i x else max_block bw' (S i) own id w
  end.

(* local_search.h:282-286, 288-292, 306-310 the neighbours forget their best move and are looked at again *)
Fixpoint forget (row : list half) (nb : list (option (nat * Z))) (bnd : list bool) : list (option (nat * Z)) * list bool :=
  match row with
  | [] => (nb, bnd)
  | (t, _, _) :: row' => forget row' (upd nb t None) (upd bnd t true)
  end.

(* local_search.h:265-294 the loop over the edges of n; the flag is notDoublemoved *)
Fixpoint double_moves (R : list (list half)) (n mb : nat) (gain : Z) (row : list half) (s : gls) (single : bool) : gls * bool :=
  match row with
  | [] => (s, single)
  | (t, w, _) :: row' =>
      match nth t (g_nb s) None with
      | Some (nbr, ng) =>
          let movegain := (ng + gain + 2 * Z.of_N w)%Z in
          if (block_of (g_sol s) t =? block_of (g_sol s) n) && (nbr =? mb) && (0 <? movegain)%Z && (gain <? movegain)%Z then
            let '(nb1, bd1) := forget (nth n R []) (g_nb s) (g_bnd s) in
            let '(nb2, bd2) := forget (nth t R []) (upd nb1 t None) bd1 in
            double_moves R n mb gain row' (mk_gls (upd (upd (g_sol s) n mb) t mb) bd2 nb2 (g_imp s + movegain)%Z) false
          else double_moves R n mb gain row' s single
      | None => double_moves R n mb gain row' s single
      end
  end.

(* local_search.h:232-313 one vertex *)
Definition gain_visit (R : list (list half)) (fixed : list bool) (nt : nat) (s : gls) (n : nat) : option gls :=
  if fixed_at fixed n || negb (nth n (g_bnd s) true) then Some s
  else
    match block_weights (nth n R []) (g_sol s) (repeat 0%N nt) with
    | None => None
    | Some bw =>
        let own := block_of (g_sol s) n in
        if nt <=? own then None
        else
          let ownw := nth own bw 0%N in
          let '(mb, mw) := max_block bw 0 own 0 0%N in
          let bd := if (0 <? mw)%N then upd (g_bnd s) n false else g_bnd s in
          let gain := (Z.of_N mw - Z.of_N ownw)%Z in
          let '(s1, single) := double_moves R n mb gain (nth n R []) (mk_gls (g_sol s) bd (g_nb s) (g_imp s)) true in
          if negb single then Some s1
          else if (0 <=? gain)%Z then
            let '(nb2, bd2) := forget (nth n R []) (g_nb s1) (g_bnd s1) in
            Some (mk_gls (upd (g_sol s1) n mb) bd2 nb2 (g_imp s1 + gain)%Z)
          else Some (mk_gls (g_sol s1) (g_bnd s1) (upd (g_nb s1) n (Some (mb, gain))) (g_imp s1))
    end.

(* local_search.h:231-314 *)
Fixpoint gain_visits (R : list (list half)) (fixed : list bool) (nt : nat) (vs : list nat) (s : gls) : option gls :=
  match vs with
  | [] => Some s
  | n :: vs' => match gain_visit R fixed nt s n with Some s' => gain_visits R fixed nt vs' s' | None => None end
  end.

(* local_search.h:220-316 gainLocalSearch with the permutation perm *)
Definition gain_search (R : list (list half)) (fixed : list bool) (nt : nat) (perm : list nat) (sol : list nat) : option (list nat * Z) :=
  option_map (fun s => (g_sol s, g_imp s))
    (gain_visits R fixed nt perm (mk_gls sol (repeat true (length R)) (repeat None (length R)) 0%Z)).

(* ** flowBetweenBlocks *)

(* local_search.h:60, 76, 83, 137 *)
Definition in_pair (sol : list nat) (a b v : nat) : bool := (block_of sol v =? a) || (block_of sol v =? b).

(* local_search.h:53, 58-69 mapping and id; UNDEFINED_NODE is n+2, which is larger than every id *)
Fixpoint block_map (fixed : list bool) (sol : list nat) (a b : nat) (vs : list nat) (m : list nat) (id : nat) : list nat * nat :=
  match vs with
  | [] => (m, id)
  | v :: vs' =>
      if negb (in_pair sol a b v) then block_map fixed sol a b vs' m id
      else if fixed_at fixed v then block_map fixed sol a b vs' (upd m v (if block_of sol v =? a then 0 else 1)) id
      else block_map fixed sol a b vs' (upd m v id) (S id)
  end.

(* local_search.h:94-98 and 100-104: map[k] += w *)
Fixpoint map_add (m : list (nat * N)) (k : nat) (w : N) : list (nat * N) :=
  match m with
  | [] => [(k, w)]
  | (k', w') :: m' => if k' =? k then (k', (w' + w)%N) :: m' else (k', w') :: map_add m' k w
  end.

(* local_search.h:54-55, 71-72 sol_weight, G, edgesToFixed0, edgesToFixed1 *)
Record fbs := mk_fbs { b_w : N; b_G : mg; b_e0 : list (nat * N); b_e1 : list (nat * N) }.

(* local_search.h:81-108 one edge of n *)
Definition pair_edge (sol m : list nat) (a b n : nat) (s : fbs) (h : half) : option fbs :=
  let '(t, w, _) := h in
  let mn := nth n m 0 in let mt := nth t m 0 in
  if negb (in_pair sol a b t) || (mt <=? mn) || (mt <? 2) then Some s
  else
    let sw := if block_of sol t =? block_of sol n then b_w s else (b_w s + w)%N in
    if mn <? 2 then
      if mn =? 0 then Some (mk_fbs sw (b_G s) (map_add (b_e0 s) mt w) (b_e1 s))
      else Some (mk_fbs sw (b_G s) (b_e0 s) (map_add (b_e1 s) mt w))
    else option_map (fun G => mk_fbs sw G (b_e0 s) (b_e1 s)) (new_edge_order (b_G s) mn mt w).

(* a loop whose body may fail *)
Fixpoint fold_opt {A B} (f : A -> B -> option A) (l : list B) (a : A) : option A :=
  match l with [] => Some a | x :: l' => match f a x with Some a' => fold_opt f l' a' | None => None end end.

(* local_search.h:75-110 *)
Definition pair_node (R : list (list half)) (sol m : list nat) (a b : nat) (s : fbs) (n : nat) : option fbs :=
  if negb (in_pair sol a b n) then Some s else fold_opt (pair_edge sol m a b n) (nth n R []) s.

(* local_search.h:111-116 *)
Definition add_fixed (c : nat) (G : mg) (e : nat * N) : option mg := new_edge_order G (fst e) c (snd e).

(* local_search.h:136-153 one vertex *)
Definition reassign (fixed : list bool) (m : list nat) (zero : list nat) (a b : nat) (sol : list nat) (n : nat) : option (list nat) :=
  if in_pair sol a b n then
    let z := existsb (Nat.eqb (nth n m 0)) zero in
    if fixed_at fixed n && negb (Bool.eqb z (block_of sol n =? a)) then None
    else Some (upd sol n (if z then a else b))
  else Some sol.

(* local_search.h:50-159 flowBetweenBlocks: the new solution, the improvement and the flow *)
Definition flow_between (fuel : nat) (ord0 ord1 : list (nat * N) -> list (nat * N)) (pick : nat -> list nat -> nat) (gl : nat -> bool)
    (R : list (list half)) (fixed : list bool) (a b : nat) (sol : list nat) : option (list nat * Z * Z) :=
  let n := length R in
  let '(m, id) := block_map fixed sol a b (seq 0 n) (repeat (n + 2) n) 2 in
  match fold_opt (pair_node R sol m a b) (seq 0 n) (mk_fbs 0 (start_construction id) [] []) with
  | None => None
  | Some s =>
      match fold_opt (add_fixed 0) (ord0 (b_e0 s)) (b_G s) with
      | None => None
      | Some G0 =>
          match fold_opt (add_fixed 1) (ord1 (b_e1 s)) G0 with
          | None => None
          | Some G1 =>
              match solve_max_flow fuel pick gl (m_rows G1) [0; 1] 0 with
              | None => None
              | Some (f, zero) =>
                  option_map (fun sol' => (sol', (Z.of_N (b_w s) - f)%Z, f)) (fold_opt (reassign fixed m zero a b) (seq 0 n) sol)
              end
          end
      end
  end.

(* ** flowLocalSearch *)

(* local_search.h:179-186 one edge *)
Definition conn_edge (fixed : list bool) (sol : list nat) (n : nat) (bc : list (list N)) (h : half) : option (list (list N)) :=
  let '(t, w, _) := h in
  let bn := block_of sol n in let bt := block_of sol t in
  if (bn <? bt) && (negb (fixed_at fixed n) || negb (fixed_at fixed t)) then
    if (bn <? length bc) && (bt <? length (nth bn bc [])) then Some (upd bc bn (upd (nth bn bc []) bt (nth bt (nth bn bc []) 0 + w)%N)) else None
  else Some bc.

(* local_search.h:167-187 blockConnectivity *)
Definition connectivity (R : list (list half)) (fixed : list bool) (kt : nat) (sol : list nat) : option (list (list N)) :=
  fold_opt (fun bc n => fold_opt (conn_edge fixed sol n) (nth n R []) bc) (seq 0 (length R)) (repeat (repeat 0%N kt) kt).

(* local_search.h:189-198 neighboringBlocks, without the weight, which is only logged *)
Definition changed_pairs (kt : nat) (bc prev : list (list N)) : list (nat * nat) :=
  flat_map (fun i => flat_map (fun j =>
    if (i <? j) && negb (nth j (nth i bc []) 0 =? nth j (nth i prev []) 0)%N then [(i, j)] else []) (seq 0 kt)) (seq 0 kt).

(* local_search.h:206-214 with the round r and the index k of the pair *)
Fixpoint flow_pairs (fuel : nat) (ch : choices) (R : list (list half)) (fixed : list bool) (r k : nat) (ps : list (nat * nat))
    (sol : list nat) (prev : list (list N)) (imp : Z) : option (list nat * list (list N) * Z) :=
  match ps with
  | [] => Some (sol, prev, imp)
  | (a, b) :: ps' =>
      if c_late ch r k then Some (sol, prev, imp)
      else
        match flow_between fuel (c_ord0 ch r k) (c_ord1 ch r k) (c_pick ch r k) (c_gl ch r k) R fixed a b sol with
        | None => None
        | Some (sol', i, f) =>
            flow_pairs fuel ch R fixed r (S k) ps' sol' (upd prev a (upd (nth a prev []) b (Z.to_N f))) (imp + i)%Z
        end
  end.

(* local_search.h:161-218 flowLocalSearch *)
Definition flow_search (fuel : nat) (ch : choices) (R : list (list half)) (fixed : list bool) (kt r : nat)
    (sol : list nat) (prev : list (list N)) : option (list nat * list (list N) * Z) :=
  if c_late0 ch r then Some (sol, prev, 0%Z)
  else
    match connectivity R fixed kt sol with
    | None => None
    | Some bc => flow_pairs fuel ch R fixed r 0 (c_shuf ch r (changed_pairs kt bc prev)) sol prev 0%Z
    end.

(* ** improveSolution *)

(* local_search.h:321-331, 347-358 *)
Fixpoint gain_loop (fuel : nat) (R : list (list half)) (fixed : list bool) (nt : nat) (perm : nat -> list nat) (r : nat)
    (sol : list nat) (tot : Z) : option (list nat * Z) :=
  match fuel with
  | 0 => None
  | S fuel' =>
      match gain_search R fixed nt (perm r) sol with
      | None => None
      | Some (sol', i) => if (0 <? i)%Z then gain_loop fuel' R fixed nt perm (S r) sol' (tot + i)%Z else Some (sol', (tot + i)%Z)
      end
  end.

(* local_search.h:333-345; ff: fuel of the flow computations *)
Fixpoint flow_loop (fuel ff : nat) (ch : choices) (R : list (list half)) (fixed : list bool) (kt r : nat)
    (sol : list nat) (prev : list (list N)) (tot : Z) : option (list nat * Z) :=
  match fuel with
  | 0 => None
  | S fuel' =>
      match flow_search ff ch R fixed kt r sol prev with
      | None => None
      | Some (sol', prev', i) =>
          if (0 <? i)%Z then flow_loop fuel' ff ch R fixed kt (S r) sol' prev' (tot + i)%Z else Some (sol', (tot + i)%Z)
      end
  end.

(* local_search.h:319-362 improveSolution on a new object (34-47): the solution and total_improvement *)
Definition improve_solution (fuel : nat) (ch : choices) (R : list (list half)) (fixed : list bool) (kt nt : nat) (sol : list nat)
    : option (list nat * Z) :=
  match gain_loop fuel R fixed nt (c_perm1 ch) 0 sol 0%Z with
  | None => None
  | Some (sol1, i1) =>
      match flow_loop fuel fuel ch R fixed kt 0 sol1 (repeat (repeat 0%N kt) kt) i1 with
      | None => None
      | Some (sol2, i2) => gain_loop fuel R fixed nt (c_perm2 ch) 0 sol2 i2
      end
  end.
