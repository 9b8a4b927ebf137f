(* M_Queue.v - model of lib/algorithms/multicut/problem_queues/per_thread_problem_queue.h as a machine of threads.
   One step is one access that another thread can see: taking or releasing a mutex, or reading or writing
   haveSendProblem or sendProblemWeight, which the code reads without a lock.  Accesses to sendProblem and to a
   queue, made only under their mutex, are merged with a neighbouring step.  Memory is sequentially consistent.
   min_index depends on the racing reads of sizes (lines 136-160) and is an arbitrary index.  Releasing a mutex
   that the thread does not own is undefined behaviour; the model records it (q_ub) and lets the mutex become
   free, as common implementations do. *)
From Verif Require Export Lib.

(* multicut_problem.h:43-203 a problem: an identity and its lower bound (198) *)
Definition prob := (nat * N)%type.

(* the calls: per_thread_problem_queue.h:135 (problem, min_index), 98 (local_id, sending), 83 (local_id, bound) *)
Inductive qcall := CAdd (p : prob) (m : nat) | CPull (l : nat) (sending : bool) | CPrep (l : nat) (b : N).

(* where a thread stands; the names follow the next step *)
Inductive tst :=
| Idle
| ALock (p : prob) (m : nat)      (* 162 pop_mutex[min_index].lock() *)
| ACheck (p : prob) (m : nat)     (* 164 if (!haveSendProblem) *)
| ASend (p : prob) (m : nat)      (* 165 send_problem_mutex.lock() *)
| AStore (p : prob) (m : nat)     (* 167 sendProblem = p *)
| AWeight (p : prob) (m : nat)    (* 168 sendProblemWeight = lower_bound *)
| AHave (m : nat)                 (* 169 haveSendProblem = true *)
| AUnPop (m : nat)                (* 170 *)
| AUnSend                         (* 171 *)
| BSize (p : prob) (m : nat)      (* 175 sizes[min_index].first += 1 *)
| BWeight (p : prob) (m : nat)    (* 178 if (sendProblemWeight > lower_bound) *)
| BLock (p : prob) (m : nat)      (* 179 send_problem_mutex.lock() *)
| BSwap (p : prob) (m : nat)      (* 180-183 if (haveSendProblem) swap *)
| BWt (p : prob) (m : nat)        (* 184 sendProblemWeight = lower_bound *)
| BUn1 (m : nat)                  (* 186 send_problem_mutex.unlock() *)
| BUn2 (m : nat)                  (* 188 send_problem_mutex.unlock() after a swap *)
| BUnN (p : prob) (m : nat)       (* 188 send_problem_mutex.unlock() without a swap *)
| BPush (p : prob) (m : nat)      (* 191-193 pq.push(p) *)
| BUnPop (m : nat)                (* 194 *)
| PLock (l : nat) (sd : bool)     (* 105 pop_mutex[local_id].lock() *)
| PCheck (l : nat) (sd : bool)    (* 106 the condition; 120-123 pop *)
| PSend (l : nat)                 (* 107 send_problem_mutex.lock() *)
| PHave (l : nat)                 (* 108 if (haveSendProblem) *)
| PWt (l : nat)                   (* 109 sendProblemWeight = UNDEFINED_FLOW *)
| PTake (l : nat)                 (* 110-112 haveSendProblem = false; take sendProblem *)
| PUnSend (l : nat) (c : option prob)  (* 118 *)
| PUnPop (l : nat) (c : option prob)   (* 125-132 unlock and return *)
| FUnSend (l : nat)               (* 114 *)
| FUnPop (l : nat)                (* 115-116 unlock and return nullopt *)
| RLock (l : nat) (b : N)         (* 84 *)
| RLoop (l : nat) (b : N)         (* 85-94 *)
| RUn (l : nat).                  (* 95 *)

(* per_thread_problem_queue.h:289-295 the members; q_wt: None is UNDEFINED_FLOW; q_pm, q_sm: owners of the
   mutexes.  q_null: pullProblem called exit(1) for a null problem.  For the statements: q_added, q_ret, q_drop
   list the problems added, returned and dropped so far,
   and q_lost those that line 167 wrote over. *)
Record qst := mk_q {
  q_pq : list (list prob); q_sz : list nat; q_have : bool; q_send : option prob; q_wt : option N;
  q_pm : list (option nat); q_sm : option nat; q_thr : list tst; q_ub : bool; q_null : bool;
  q_added : list prob; q_ret : list prob; q_drop : list (prob * N); q_lost : list prob }.

(* per_thread_problem_queue.h:29-80 the constructor for nt threads *)
Definition q_init (nt : nat) : qst :=
  mk_q (repeat [] nt) (repeat 0 nt) false None None (repeat None nt) None (repeat Idle nt) false false [] [] [] [].

(* a thread moves on: part of every step below *)
Definition goto (i : nat) (t : tst) (s : qst) : qst :=
  mk_q (q_pq s) (q_sz s) (q_have s) (q_send s) (q_wt s) (q_pm s) (q_sm s) (upd (q_thr s) i t) (q_ub s) (q_null s) (q_added s) (q_ret s) (q_drop s) (q_lost s).
(* writes of queue m with its size: lines 88-89, 121-122, 175, 182, 192 *)
Definition set_pq (m : nat) (l : list prob) (k : nat) (s : qst) : qst :=
  mk_q (upd (q_pq s) m l) (upd (q_sz s) m k) (q_have s) (q_send s) (q_wt s) (q_pm s) (q_sm s) (q_thr s) (q_ub s) (q_null s) (q_added s) (q_ret s) (q_drop s) (q_lost s).
(* writes of haveSendProblem: lines 110, 169 *)
Definition set_have (b : bool) (s : qst) : qst :=
  mk_q (q_pq s) (q_sz s) b (q_send s) (q_wt s) (q_pm s) (q_sm s) (q_thr s) (q_ub s) (q_null s) (q_added s) (q_ret s) (q_drop s) (q_lost s).
(* writes of sendProblem: lines 112, 167, 183 *)
Definition set_send (o : option prob) (s : qst) : qst :=
  mk_q (q_pq s) (q_sz s) (q_have s) o (q_wt s) (q_pm s) (q_sm s) (q_thr s) (q_ub s) (q_null s) (q_added s) (q_ret s) (q_drop s) (q_lost s).
(* writes of sendProblemWeight: lines 109, 168, 184 *)
Definition set_wt (o : option N) (s : qst) : qst :=
  mk_q (q_pq s) (q_sz s) (q_have s) (q_send s) o (q_pm s) (q_sm s) (q_thr s) (q_ub s) (q_null s) (q_added s) (q_ret s) (q_drop s) (q_lost s).
(* the owners of the mutexes: lines 84, 95, 105, 107, 114, 115, 118, 125, 162, 165, 170, 171, 179, 186, 188, 194 *)
Definition set_pm (m : nat) (o : option nat) (s : qst) : qst :=
  mk_q (q_pq s) (q_sz s) (q_have s) (q_send s) (q_wt s) (upd (q_pm s) m o) (q_sm s) (q_thr s) (q_ub s) (q_null s) (q_added s) (q_ret s) (q_drop s) (q_lost s).
Definition set_sm (o : option nat) (s : qst) : qst :=
  mk_q (q_pq s) (q_sz s) (q_have s) (q_send s) (q_wt s) (q_pm s) o (q_thr s) (q_ub s) (q_null s) (q_added s) (q_ret s) (q_drop s) (q_lost s).
(* undefined behaviour and exit(1) (line 129) *)
Definition set_ub (s : qst) : qst :=
  mk_q (q_pq s) (q_sz s) (q_have s) (q_send s) (q_wt s) (q_pm s) (q_sm s) (q_thr s) true (q_null s) (q_added s) (q_ret s) (q_drop s) (q_lost s).
(* the lists kept for the statements: entry of addProblem (135), return of pullProblem (127-132), line 88, line 167 *)
Definition log_add (p : prob) (s : qst) : qst :=
  mk_q (q_pq s) (q_sz s) (q_have s) (q_send s) (q_wt s) (q_pm s) (q_sm s) (q_thr s) (q_ub s) (q_null s) (p :: q_added s) (q_ret s) (q_drop s) (q_lost s).
Definition log_ret (c : option prob) (s : qst) : qst :=
  match c with
  | Some p => mk_q (q_pq s) (q_sz s) (q_have s) (q_send s) (q_wt s) (q_pm s) (q_sm s) (q_thr s) (q_ub s) (q_null s) (q_added s) (p :: q_ret s) (q_drop s) (q_lost s)
  | None => mk_q (q_pq s) (q_sz s) (q_have s) (q_send s) (q_wt s) (q_pm s) (q_sm s) (q_thr s) (q_ub s) true (q_added s) (q_ret s) (q_drop s) (q_lost s)
  end.
Definition log_drop (p : prob) (b : N) (s : qst) : qst :=
  mk_q (q_pq s) (q_sz s) (q_have s) (q_send s) (q_wt s) (q_pm s) (q_sm s) (q_thr s) (q_ub s) (q_null s) (q_added s) (q_ret s) ((p, b) :: q_drop s) (q_lost s).

Definition log_lost (s : qst) : qst :=
  mk_q (q_pq s) (q_sz s) (q_have s) (q_send s) (q_wt s) (q_pm s) (q_sm s) (q_thr s) (q_ub s) (q_null s) (q_added s) (q_ret s) (q_drop s)
    (match q_send s with Some q => q :: q_lost s | None => q_lost s end).

(* std::mutex::lock: None if the mutex is taken (the thread waits) *)
Definition lock_pm (i m : nat) (s : qst) : option qst := match nth m (q_pm s) None with None => Some (set_pm m (Some i) s) | Some _ => None end.
Definition lock_sm (i : nat) (s : qst) : option qst := match q_sm s with None => Some (set_sm (Some i) s) | Some _ => None end.
(* std::mutex::unlock *)
Definition owns (i : nat) (o : option nat) : bool := match o with Some j => j =? i | None => false end.
Definition unlock_pm (i m : nat) (s : qst) : qst := let s' := set_pm m None s in if owns i (nth m (q_pm s) None) then s' else set_ub s'.
Definition unlock_sm (i : nat) (s : qst) : qst := let s' := set_sm None s in if owns i (q_sm s) then s' else set_ub s'.

(* sendProblemWeight > lower_bound with UNDEFINED_FLOW as the largest value: line 178 *)
Definition wt_gt (w : option N) (lb : N) : bool := match w with None => true | Some x => (lb <? x)%N end.

(* one step of thread i, per_thread_problem_queue.h:83-196; c: the call an idle thread starts; top: priority_queue
   top() and what pop() leaves.  None: the thread waits or the step is not possible *)
Definition qstep (top : list prob -> option (prob * list prob)) (i : nat) (c : option qcall) (s : qst) : option qst :=
  let nt := length (q_thr s) in
  match nth_error (q_thr s) i with
  | None => None
  | Some t =>
      match t with
      | Idle =>
          match c with
          | None => None
          | Some (CAdd p m) => if m <? nt then Some (log_add p (goto i (ALock p m) s)) else None
          | Some (CPull l sd) => if l <? nt then Some (goto i (PLock l sd) s) else None
          | Some (CPrep l b) => if l <? nt then Some (goto i (RLock l b) s) else None
          end
      | ALock p m => option_map (goto i (ACheck p m)) (lock_pm i m s)
      | ACheck p m => Some (goto i (if q_have s then BSize p m else ASend p m) s)
      | ASend p m => option_map (goto i (AStore p m)) (lock_sm i s)
      | AStore p m => Some (goto i (AWeight p m) (set_send (Some p) (log_lost s)))
      | AWeight p m => Some (goto i (AHave m) (set_wt (Some (snd p)) s))
      | AHave m => Some (goto i (AUnPop m) (set_have true s))
      | AUnPop m => Some (goto i AUnSend (unlock_pm i m s))
      | AUnSend => Some (goto i Idle (unlock_sm i s))
      | BSize p m => Some (goto i (BWeight p m) (set_pq m (nth m (q_pq s) []) (nth m (q_sz s) 0 + 1) s))
      | BWeight p m => Some (goto i (if wt_gt (q_wt s) (snd p) then BLock p m else BPush p m) s)
      | BLock p m => option_map (goto i (BSwap p m)) (lock_sm i s)
      | BSwap p m =>
          if q_have s then
            match q_send s with
            | Some q => Some (goto i (BWt p m) (set_send (Some p) (set_pq m (q :: nth m (q_pq s) []) (nth m (q_sz s) 0) s)))
            | None => None
            end
          else Some (goto i (BUnN p m) s)
      | BWt p m => Some (goto i (BUn1 m) (set_wt (Some (snd p)) s))
      | BUn1 m => Some (goto i (BUn2 m) (unlock_sm i s))
      | BUn2 m => Some (goto i (BUnPop m) (unlock_sm i s))
      | BUnN p m => Some (goto i (BPush p m) (unlock_sm i s))
      | BPush p m => Some (goto i (BUnPop m) (set_pq m (p :: nth m (q_pq s) []) (nth m (q_sz s) 0) s))
      | BUnPop m => Some (goto i Idle (unlock_pm i m s))
      | PLock l sd => option_map (goto i (PCheck l sd)) (lock_pm i l s)
      | PCheck l sd =>
          match (sd && q_have s)%bool, top (nth l (q_pq s) []) with
          | false, Some (p, rest) => Some (goto i (PUnPop l (Some p)) (set_pq l rest (nth l (q_sz s) 0 - 1) s))
          | _, _ => Some (goto i (PSend l) s)
          end
      | PSend l => option_map (goto i (PHave l)) (lock_sm i s)
      | PHave l => Some (goto i (if q_have s then PWt l else FUnSend l) s)
      | PWt l => Some (goto i (PTake l) (set_wt None s))
      | PTake l => Some (goto i (PUnSend l (q_send s)) (set_send None (set_have false s)))
      | PUnSend l c => Some (goto i (PUnPop l c) (unlock_sm i s))
      | PUnPop l c => Some (goto i Idle (log_ret c (unlock_pm i l s)))
      | FUnSend l => Some (goto i (FUnPop l) (unlock_sm i s))
      | FUnPop l => Some (goto i Idle (unlock_pm i l s))
      | RLock l b => option_map (goto i (RLoop l b)) (lock_pm i l s)
      | RLoop l b =>
          match top (nth l (q_pq s) []) with
          | Some (p, rest) => if (b <=? snd p)%N then Some (goto i (RLoop l b) (log_drop p b (set_pq l rest (nth l (q_sz s) 0 - 1) s))) else Some (goto i (RUn l) s)
          | None => Some (goto i (RUn l) s)
          end
      | RUn l => Some (goto i Idle (unlock_pm i l s))
      end
  end.

(* a schedule: which thread makes the next step *)
Fixpoint qrun (top : list prob -> option (prob * list prob)) (sched : list (nat * option qcall)) (s : qst) : option qst :=
  match sched with
  | [] => Some s
  | (i, c) :: sched' => match qstep top i c s with Some s' => qrun top sched' s' | None => None end
  end.

(* per_thread_problem_queue.h:206-215 size() *)
Definition q_size (s : qst) : nat := list_sum (q_sz s) + if q_have s then 1 else 0.
