(* M_Bnb.v - model of the branch-and-bound loop of the multiterminal cut solver: branch_multicut.h
   (find_multiterminal_cut, solveProblem, branchOnEdge), problem_management.h (multiBranch, processNewProblem,
   findBestSolution, checkProblem, runLocalSearch, updateBound) and measurements.h (getSolution).
   One MPI rank, default configuration (multibranch, runLocalSearch, exact, no ILP, no timeout); every call of
   findBestSolution and solveProblem is atomic, in any order (the races inside findBestSolution are in
   M_BestSol.v).  simplify, setTerminals and kernelization (branch_multicut.h:352-362) enter as their result. *)
From Verif Require Export M_Branch M_IsoFlow.

(* multicut_problem.h:43-100 multicut_problem *)
Record prob := mk_prob { p_g : mg; p_ts : list (nat * nat); p_maps : list (list nat); p_up : N; p_lo : N; p_del : N }.

(* measurements.h:35-43 getSolution for the vertices n, n+1, ...; None: an index out of range *)
Fixpoint get_sol (G : mg) (maps : list (list nat)) (k : nat) (count n : nat) : option (list nat) :=
  match count with
  | 0 => Some []
  | S count' =>
      match mapped maps n with
      | None => None
      | Some x =>
          match nth_error (m_pos G) x with
          | None => None
          | Some t =>
              match nth_error (m_part G) t with
              | None => None
              | Some b => if b <? k then option_map (cons b) (get_sol G maps k count' (S n)) else None
              end
          end
      end
  end.

(* measurements.h:35-58 getSolution (the checks of 45-56 are for debug builds) *)
Definition get_solution (n0 k : nat) (P : prob) : option (list nat) := get_sol (p_g P) (p_maps P) k n0 0.

(* problem_management.h:49-55 global_upper_bound, terminalGUB, beforeLSGUB (None: UNDEFINED_FLOW), best_solution
   (None: not bestSolutionInitialized).  b_log is no part of the code: the solutions handed to findBestSolution
   without a new flow, each with the weight deleted so far *)
Record bst := mk_bst { b_gub : N; b_tg : list (option N); b_ls : list (option N); b_best : option (list nat);
                       b_log : list (list nat * N) }.

(* problem_management.h:267, 284, 384 comparisons with a bound that may still be UNDEFINED_FLOW *)
Definition le_inf (x : N) (o : option N) : bool := match o with None => true | Some y => (x <=? y)%N end.
Definition lt_inf (x : N) (o : option N) : bool := match o with None => true | Some y => (x <? y)%N end.

(* problem_management.h:262-302 findBestSolution; ls is improveSolution: the new solution and the improvement.
   None: exit(1) in flowValue *)
Definition find_best (ls : list nat -> option (list nat * N)) (G0 : mg) (origs : list nat) (st : bst) (sol : list nat) (k : nat) : option bst :=
  match flow_value G0 origs sol with
  | None => None
  | Some v =>
      if negb (le_inf v (nth k (b_ls st) None)) then Some st
      else
        let '(gub1, best1) := if (v <? b_gub st)%N then (v, Some sol) else (b_gub st, b_best st) in
        match ls sol with
        | None => None
        | Some (sol', imp) =>
            let lsb := (v - imp)%N in
            let '(tg2, ls2) := if le_inf lsb (nth k (b_tg st) None) then (upd (b_tg st) k (Some lsb), upd (b_ls st) k (Some v)) else (b_tg st, b_ls st) in
            if (lsb <? gub1)%N || match best1 with None => true | Some _ => false end
            then Some (mk_bst lsb tg2 ls2 (Some sol') (b_log st))
            else Some (mk_bst gub1 tg2 ls2 best1 (b_log st))
        end
  end.

(* problem_management.h:383-386 runLocalSearch; on is configuration::runLocalSearch (configuration.h:62) *)
Definition run_ls (on : bool) (st : bst) (P : prob) : bool := lt_inf (p_up P) (nth (length (p_ts P)) (b_ls st) None) && on.

(* maximum_flow.h, push_relabel.h, problem_management.h:233: the choices made while a problem is processed: fuel, vertex selection and global relabelings of the flows,
   threads, hash order, configuration::runLocalSearch, local search *)
Record env := mk_env { e_fuel : nat; e_pick : nat -> nat -> list nat -> nat; e_gl : nat -> nat -> bool; e_par : bool;
                       e_ord : list nat -> list nat; e_on : bool; e_ls : list nat -> option (list nat * N) }.

(* problem_management.h:226-229, 237-240, 246-257 getSolution and findBestSolution *)
Definition report (e : env) (G0 : mg) (origs : list nat) (st : bst) (P : prob) (k : nat) : option bst :=
  match get_solution (m_n G0) (length origs) P with
  | None => None
  | Some sol => find_best (e_ls e) G0 origs st sol k
  end.

(* problem_management.h:219-222, branch_multicut.h:547-552 the same for a problem whose partition indices have not been set since its graph changed *)
Definition report_old (e : env) (G0 : mg) (origs : list nat) (st : bst) (P : prob) (k : nat) : option bst :=
  match get_solution (m_n G0) (length origs) P with
  | None => None
  | Some sol => find_best (e_ls e) G0 origs (mk_bst (b_gub st) (b_tg st) (b_ls st) (b_best st) ((sol, p_del P) :: b_log st)) sol k
  end.

(* problem_management.h:169-171 multiBranch marks the flows of all terminals as invalid *)
Definition all_inv (ts : list (nat * nat)) : list term := map (fun p => (p, true)) ts.

(* problem_management.h:216-260 processNewProblem: the new state and the problems put into the queue *)
Definition process_new (e : env) (G0 : mg) (origs : list nat) (st : bst) (P : prob) : option (bst * list prob) :=
  let k := length (p_ts P) in
  let maps := p_maps P in
  if (k <? 2) && run_ls (e_on e) st P then option_map (fun st' => (st', [])) (report_old e G0 origs st P k)
  else if k =? 2 then
    match st_flow (e_fuel e) (e_pick e 0) (e_gl e 0) maps origs (p_g P) (all_inv (p_ts P)) (p_del P) with
    | None => None
    | Some (G', up) =>
        let P' := mk_prob G' (p_ts P) maps up (p_lo P) (p_del P) in
        if run_ls (e_on e) st P' then option_map (fun st' => (st', [])) (report e G0 origs st P' k) else Some (st, [])
    end
  else
    match isolating_flow (e_fuel e) (e_pick e) (e_gl e) (e_par e) (e_ord e) maps origs (p_g P) (all_inv (p_ts P)) (p_del P) with
    | None => None
    | Some (G1, _, up, lo) =>
        match finish_terms maps origs G1 (p_del P) with
        | None => None
        | Some (G2, ts2, del2) =>
            if (m_ne G2 =? 0)%N then
              let P' := mk_prob G2 ts2 maps del2 lo del2 in
              if run_ls (e_on e) st P' then option_map (fun st' => (st', [])) (report e G0 origs st P' k) else Some (st, [])
            else
              let P' := mk_prob G2 ts2 maps up lo del2 in
              if (lo <? b_gub st)%N then
                if run_ls (e_on e) st P' then option_map (fun st' => (st', [P'])) (report e G0 origs st P' k) else Some (st, [P'])
              else Some (st, [])
        end
    end.

(* problem_management.h:152-213 the children of multiBranch, one after the other *)
Fixpoint process_all (e : nat -> env) (G0 : mg) (origs : list nat) (st : bst) (P : prob) (cs : list (mg * list (nat * nat) * N)) : option (bst * list prob) :=
  match cs with
  | [] => Some (st, [])
  | (G', ts', w) :: cs' =>
      match process_new (e (length cs')) G0 origs st (mk_prob G' ts' (p_maps P) (p_up P) (p_lo P) (p_del P + w)) with
      | None => None
      | Some (st1, q1) =>
          match process_all e G0 origs st1 P cs' with
          | None => None
          | Some (st2, q2) => Some (st2, q1 ++ q2)
          end
      end
  end.

(* branch_multicut.h:311-389 solveProblem with 539-561 branchOnEdge; K: the problem after line 362 *)
Definition solve_problem (e : nat -> env) (srt : list (option nat * N) -> list (option nat * N)) (G0 : mg) (origs : list nat)
    (st : bst) (P K : prob) : option (bst * list prob) :=
  if negb (p_lo P <? b_gub st)%N then Some (st, [])
  else if (b_gub st <? p_del K)%N then Some (st, [])
  else
    match finish_terms (p_maps K) origs (p_g K) (p_del K) with
    | None => None
    | Some (G1, ts1, del1) =>
        if (m_ne G1 =? 0)%N then
          option_map (fun st' => (st', [])) (report_old (e 0) G0 origs st (mk_prob G1 ts1 (p_maps K) del1 (p_lo K) del1) (length ts1))
        else
          match multi_branch srt (p_maps K) origs G1 (map fst ts1) with
          | None => None
          | Some cs => process_all e G0 origs st (mk_prob G1 ts1 (p_maps K) (p_up K) (p_lo K) del1) cs
          end
    end.

(* branch_multicut.h:106-121, 311: what happens next: the main thread calls updateBestSolution with the first solution (branch_multicut.h:119-121),
   or a worker takes the i-th problem of the queue (prepareQueue and pullProblem), whose kernel is K *)
Inductive move := Main (e : env) | Work (i : nat) (K : prob) (e : nat -> env) (srt : list (option nat * N) -> list (option nat * N)).

(* branch_multicut.h:95-127 state, queue, and the solution the main thread has not reported yet *)
Definition bnb_state := (bst * list prob * option (list nat))%type.

(* branch_multicut.h:97-104 and problem_management.h:388-390 updateBound, from the initial bound
   std::numeric_limits<FlowType>::max() *)
Definition bnb_start (e : env) (origs : list nat) (G0 : mg) : option bnb_state :=
  match set_terminals G0 [] origs 0 with
  | None => None
  | Some ts =>
      match isolating_flow (e_fuel e) (e_pick e) (e_gl e) true (e_ord e) [] origs G0 (all_inv ts) 0 with
      | None => None
      | Some (G1, ts1, up, lo) =>
          let P := mk_prob G1 (map fst ts1) [] up lo 0 in
          match get_solution (m_n G0) (length origs) P with
          | None => None
          | Some sol => Some (mk_bst up (repeat None (S (length origs))) (repeat None (S (length origs))) None [], [P], Some sol)
          end
      end
  end.

(* branch_multicut.h:97, 119-121, 311-389: one move; k0 is numTerminals *)
Definition bnb_step (G0 : mg) (origs : list nat) (k0 : nat) (s : bnb_state) (m : move) : option bnb_state :=
  let '(st, q, main) := s in
  match m with
  | Main e =>
      match main with
      | None => None
      | Some sol => match find_best (e_ls e) G0 origs st sol k0 with None => None | Some st' => Some (st', q, None) end
      end
  | Work i K e srt =>
      match nth_error q i with
      | None => None
      | Some P =>
          match solve_problem e srt G0 origs st P K with
          | None => None
          | Some (st', q') => Some (st', q' ++ firstn i q ++ skipn (S i) q, main)
          end
      end
  end.

(* branch_multicut.h:106-127 the moves one after the other *)
Fixpoint bnb_run (G0 : mg) (origs : list nat) (k0 : nat) (s : bnb_state) (ms : list move) : option bnb_state :=
  match ms with
  | [] => Some s
  | m :: ms' => match bnb_step G0 origs k0 s m with None => None | Some s' => bnb_run G0 origs k0 s' ms' end
  end.
