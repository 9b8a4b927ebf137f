(* M_BestSol.v - model of concurrent calls of problem_management::findBestSolution (problem_management.h:262-302):
   one step per access to global_upper_bound, terminalGUB, beforeLSGUB, best_solution, bestSolutionInitialized and
   bestsol_mutex.  Calls start at any time (Spawn), with any solution; flowValue and improveSolution work on data
   of the call and enter as functions.  Sequentially consistent memory (the code's accesses are plain). *)
From Verif Require Export Lib.

(* problem_management.h:262-302: where a call is.  sol: current_solution, k: numTerminals, v: prev_gub, b: ls_bound *)
Inductive pc :=
| Gate                      (* 267 read beforeLSGUB *)
| Check                     (* 270 read global_upper_bound *)
| SetV                      (* 271 *)
| Lock1                     (* 274 *)
| Copy1 (i : nat)           (* 275-277 *)
| Init1                     (* 278 *)
| Unlock1                   (* 279 *)
| Improve                   (* 281-282 *)
| ReadT (b : N)             (* 284 read terminalGUB *)
| SetT (b : N)              (* 285 *)
| SetL (b : N)              (* 286 *)
| Check2 (b : N)            (* 289 read global_upper_bound *)
| Check3 (b : N)            (* 289 read bestSolutionInitialized *)
| SetB (b : N)              (* 290 *)
| Lock2                     (* 293 *)
| Copy2 (i : nat)           (* 294-296 *)
| Init2                     (* 297 *)
| Unlock2                   (* 298 *)
| Done (early : bool).      (* returned; early: at 268 *)

(* problem_management.h:262-264 one call: solution, number of terminals, value, where it is *)
Record fcall := mk_fcall { c_sol : list nat; c_k : nat; c_v : N; c_pc : pc }.

(* problem_management.h:43-55 the shared variables; s_lock: the call that holds bestsol_mutex *)
Record fstate := mk_fstate { s_gub : N; s_tg : list (option N); s_ls : list (option N); s_best : list nat; s_init : bool;
                             s_lock : option nat; s_calls : list fcall }.

(* problem_management.h:267, 284 comparison with a bound that may be UNDEFINED_FLOW *)
Definition leb_inf (x : N) (o : option N) : bool := match o with None => true | Some y => (x <=? y)%N end.

(* problem_management.h:262 the call j goes on at p *)
Definition at_pc (s : fstate) (j : nat) (c : fcall) (p : pc) : fstate :=
  mk_fstate (s_gub s) (s_tg s) (s_ls s) (s_best s) (s_init s) (s_lock s) (upd (s_calls s) j (mk_fcall (c_sol c) (c_k c) (c_v c) p)).

(* problem_management.h:275-277, 294-296: one round of the copying loop; None: write outside of best_solution *)
Definition copy_cell (s : fstate) (j : nat) (c : fcall) (i : nat) (next stop : pc) : option fstate :=
  match nth_error (c_sol c) i with
  | None => Some (at_pc s j c stop)
  | Some x =>
      if i <? length (s_best s)
      then Some (at_pc (mk_fstate (s_gub s) (s_tg s) (s_ls s) (upd (s_best s) i x) (s_init s) (s_lock s) (s_calls s)) j c next)
      else None
  end.

(* problem_management.h:267-302 one step of call j; imp is improveSolution: new solution and improvement.
   None: the call waits for the mutex, is finished, or accesses a vector out of range *)
Definition call_step (imp : list nat -> list nat * N) (s : fstate) (j : nat) : option fstate :=
  match nth_error (s_calls s) j with
  | None => None
  | Some c =>
      let sol := c_sol c in
      let k := c_k c in
      let v := c_v c in
      match c_pc c with
      | Gate => match nth_error (s_ls s) k with
                | None => None
                | Some o => Some (at_pc s j c (if leb_inf v o then Check else Done true))
                end
      | Check => Some (at_pc s j c (if (v <? s_gub s)%N then SetV else Improve))
      | SetV => Some (at_pc (mk_fstate v (s_tg s) (s_ls s) (s_best s) (s_init s) (s_lock s) (s_calls s)) j c Lock1)
      | Lock1 => match s_lock s with
                 | Some _ => None
                 | None => Some (at_pc (mk_fstate (s_gub s) (s_tg s) (s_ls s) (s_best s) (s_init s) (Some j) (s_calls s)) j c (Copy1 0))
                 end
      | Copy1 i => copy_cell s j c i (Copy1 (S i)) Init1
      | Init1 => Some (at_pc (mk_fstate (s_gub s) (s_tg s) (s_ls s) (s_best s) true (s_lock s) (s_calls s)) j c Unlock1)
      | Unlock1 => Some (at_pc (mk_fstate (s_gub s) (s_tg s) (s_ls s) (s_best s) (s_init s) None (s_calls s)) j c Improve)
      | Improve => let '(sol', d) := imp sol in
                   Some (mk_fstate (s_gub s) (s_tg s) (s_ls s) (s_best s) (s_init s) (s_lock s)
                           (upd (s_calls s) j (mk_fcall sol' k v (ReadT (v - d)%N))))
      | ReadT b => match nth_error (s_tg s) k with
                   | None => None
                   | Some o => Some (at_pc s j c (if leb_inf b o then SetT b else Check2 b))
                   end
      | SetT b => Some (at_pc (mk_fstate (s_gub s) (upd (s_tg s) k (Some b)) (s_ls s) (s_best s) (s_init s) (s_lock s) (s_calls s)) j c (SetL b))
      | SetL b => Some (at_pc (mk_fstate (s_gub s) (s_tg s) (upd (s_ls s) k (Some v)) (s_best s) (s_init s) (s_lock s) (s_calls s)) j c (Check2 b))
      | Check2 b => Some (at_pc s j c (if (b <? s_gub s)%N then SetB b else Check3 b))
      | Check3 b => Some (at_pc s j c (if s_init s then Done false else SetB b))
      | SetB b => Some (at_pc (mk_fstate b (s_tg s) (s_ls s) (s_best s) (s_init s) (s_lock s) (s_calls s)) j c Lock2)
      | Lock2 => match s_lock s with
                 | Some _ => None
                 | None => Some (at_pc (mk_fstate (s_gub s) (s_tg s) (s_ls s) (s_best s) (s_init s) (Some j) (s_calls s)) j c (Copy2 0))
                 end
      | Copy2 i => copy_cell s j c i (Copy2 (S i)) Init2
      | Init2 => Some (at_pc (mk_fstate (s_gub s) (s_tg s) (s_ls s) (s_best s) true (s_lock s) (s_calls s)) j c Unlock2)
      | Unlock2 => Some (at_pc (mk_fstate (s_gub s) (s_tg s) (s_ls s) (s_best s) (s_init s) None (s_calls s)) j c (Done false))
      | Done _ => None
      end
  end.

(* problem_management.h:221, 228, 239, 257 and branch_multicut.h:511-512: a new call, or the next step of a call *)
Inductive fevent := Spawn (sol : list nat) (k : nat) | Go (j : nat) (imp : list nat -> list nat * N).

(* problem_management.h:262-266 value is flowValue; None: exit(1) *)
Definition fb_step (value : list nat -> option N) (s : fstate) (e : fevent) : option fstate :=
  match e with
  | Spawn sol k =>
      match value sol with
      | None => None
      | Some v => Some (mk_fstate (s_gub s) (s_tg s) (s_ls s) (s_best s) (s_init s) (s_lock s) (s_calls s ++ [mk_fcall sol k v Gate]))
      end
  | Go j imp => call_step imp s j
  end.

(* problem_management.h:262-302 any interleaving *)
Fixpoint fb_run (value : list nat -> option N) (s : fstate) (es : list fevent) : option fstate :=
  match es with
  | [] => Some s
  | e :: es' => match fb_step value s e with None => None | Some s' => fb_run value s' es' end
  end.

(* problem_management.h:76-84 before the first call; gub0: the bound of updateBound, k0: size of terminalGUB *)
Definition fb_start (n k0 : nat) (gub0 : N) : fstate := mk_fstate gub0 (repeat None k0) (repeat None k0) (repeat 0 n) false None [].
