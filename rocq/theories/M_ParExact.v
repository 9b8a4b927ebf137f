(* M_ParExact.v - model of exact_parallel_minimum_cut.h:63-122 perform_minimum_cut (lib/parallel/algorithm),
   compiled with PARALLEL.  The value and marks found by VieCut (line 73) are parameters; the union-find filled
   by the threads and the contraction are replaced by their sequential counterparts (M_UnionFind.v, M_Contract.v) applied
   to the pairs that the threads pass to Union, in the order of the trace. *)
From Verif Require Export M_ParCapforest.

(* exact_parallel_minimum_cut.h:172, 217: the union-find after the recorded calls *)
Fixpoint replay (u : uf) (ps : list (nat * nat)) : option uf :=
  match ps with
  | [] => Some u
  | (x, y) :: ps' => match uf_union u x y with Some (u', _) => replay u' ps' | None => None end
  end.

(* all threads have left the loop (end of the parallel region, line 238) *)
Definition finishedb (p : par) : bool :=
  forallb (fun s => match c_pc s with CDone => true | _ => false end) (p_th p).

(* exact_parallel_minimum_cut.h:92-96 one round: the parallel scan, and the sequential one if nothing was
   joined.  None = the schedule stops before all threads have finished.  starts: the values of
   random_functions::next() in randomStartNodes (124-131), one per thread *)
Definition par_round (cf : cfg) (rnd : nat) (starts : list nat) (sched : list nat) (G : graph) (mincut : N) : option (par * uf) :=
  match par_run false G mincut (map (fun r => r mod length G) starts) sched with
  | Some p =>
      if finishedb p then
        match replay (uf_init (length G)) (unions_of p) with
        | Some u => if cnt u =? length G then option_map (pair p) (capforest cf rnd G mincut) else Some (p, u)
        | None => None
        end
      else None
  | None => None
  end.

(* exact_parallel_minimum_cut.h:86-116 the contraction loop; the fuel numbers the rounds downwards.  The last component
   collects the final states of the parallel scans (ghost) *)
Fixpoint par_exact_loop (fuel : nat) (cf : cfg) (rnd : nat -> nat) (starts : nat -> list nat) (sched : nat -> graph -> list nat)
    (ord : nat -> nat -> list nat -> list nat) (maps : list (list nat)) (G : graph) (mincut : N) (marks : list bool)
    : option (N * list bool * list par) :=
  if (2 <? length G) && (0 <? mincut)%N then
    match fuel with
    | 0 => None
    | S fuel' =>
        match par_round cf (rnd fuel) (starts fuel) (sched fuel G) G mincut with
        | None => None
        | Some (p, u) =>
            if 1 <? cnt u then
              match from_union_find (ord fuel) G u with
              | None => None
              | Some (H, mapping) =>
                  let '(mincut', marks') := update_cut (maps ++ [mapping]) H mincut marks in
                  match par_exact_loop fuel' cf rnd starts sched ord (maps ++ [mapping]) H mincut' marks' with
                  | Some (r, ms, l) => Some (r, ms, p :: l)
                  | None => None
                  end
              end
            else Some (mincut, marks, [p])
        end
    end
  else Some (mincut, marks, []).

(* exact_parallel_minimum_cut.h:63-122; c0, marks0 = value and in-cut marks left by VieCut (73, 80-81) *)
Definition par_exact (cf : cfg) (rnd : nat -> nat) (starts : nat -> list nat) (sched : nat -> graph -> list nat)
    (ord : nat -> nat -> list nat -> list nat) (G : graph) (c0 : N) (marks0 : list bool) : option (N * list bool * list par) :=
  par_exact_loop (length G) cf rnd starts sched ord [] G c0 marks0.
