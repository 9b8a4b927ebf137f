(* M_ParUnionFind.v - model of lib/parallel/data_structure/union_find.h (lines 23-120)
   as a small-step machine: one step per read, write or compare-and-swap of m_parent / m_rank,
   interleaved arbitrarily (sequentially consistent memory; the plain, non-atomic reads of the
   code are modelled as single atomic reads).  SameSet (64-74) and n() (87-97) are not modelled. *)
From Verif Require Export Lib.

(* union_find.h:34, 76  the two operations a thread may call *)
Inductive pop := PUnion (a b : nat) | PFind (a : nat).

(* union_find.h:76-85  program points of Find *)
Inductive fpc :=
| F1 (el : nat)                (* line 77: read m_parent[element], compare *)
| F2 (el : nat)                (* line 78: next = m_parent[element] *)
| F3 (el next : nat)           (* line 80-81: read m_parent[next] (CAS argument) *)
| F4 (el next v : nat)         (* line 80: CAS(&m_parent[element], next, v) *)
| F5 (next : nat).             (* line 82: element = m_parent[next] *)

(* where Find returns to: a plain call, line 38 (lhs = Find(lhs)), line 39 (rhs = Find(rhs)) *)
Inductive kont := KFind (a : nat) | KLhs (rhs : nat) | KRhs (lhs : nat).

(* union_find.h:34-62, 100-114  program points; [link] = true for the call on line 53,
   false for the rank bump on line 58 *)
Inductive pc :=
| Idle
| PF (k : kont) (f : fpc)
| R1 (lhs rhs : nat)                       (* line 45: r_lhs = m_rank[lhs] *)
| R2 (lhs rhs rl : nat)                    (* line 46: r_rhs = m_rank[rhs]; swap (48-51) *)
| U1 (link : bool) (x xr y yr : nat)       (* line 102: m_parent[old] != x *)
| U2 (link : bool) (x xr y yr : nat)       (* line 102: m_rank[old] != xr *)
| U3 (link : bool) (x xr y yr : nat)       (* line 106: CAS(&m_parent[x], old, y) *)
| U4 (link : bool) (x xr y yr : nat)       (* line 107: read m_rank[old] *)
| U5 (link : bool) (x xr y yr r : nat)     (* line 107: CAS(&m_rank[x], r, yr) *)
| U6 (link : bool) (x xr y yr : nat).      (* line 111: CAS(&m_parent[x], y, old) *)

(* results seen by callers: Find(a)=r; Union found both arguments in one set (returned false);
   Union returned true *)
Inductive pev := EFind (a r : nat) | EUnionFalse (l : nat) (r : nat) | EUnionTrue.

(* shared arrays (union_find.h:117-118), one pc and remaining program per thread, and two ghost
   logs: pairs passed to Union so far, results returned so far *)
Record pst := mk_pst {
  ppar : list nat; prnk : list nat;
  pthr : list (pc * list pop);
  pissued : list (nat * nat); pev_log : list pev }.

(* union_find.h:25-30  constructor, plus the threads' programs *)
Definition pinit (n : nat) (progs : list (list pop)) : pst :=
  mk_pst (seq 0 n) (repeat 0 n) (map (fun p => (Idle, p)) progs) [] [].

(* __sync_bool_compare_and_swap on one cell: new array and success flag *)
Definition cas (l : list nat) (i old new : nat) : list nat * bool :=
  if nth i l 0 =? old then (upd l i new, true) else (l, false).

(* union_find.h:53-61, what follows a successful / failed UpdateRoot *)
Definition after_update (link ok : bool) (x xr y yr : nat) : pc :=
  if link then
    if ok then (if xr =? yr then U1 false y yr y (S yr) else Idle)
    else PF (KLhs y) (F1 x)
  else Idle.

(* union_find.h:56-61: "return true" is reached after a successful link without bump, or after
   the bump (whose result is ignored) *)
Definition after_events (link ok : bool) (xr yr : nat) : list pev :=
  if link then (if ok then (if xr =? yr then [] else [EUnionTrue]) else []) else [EUnionTrue].

(* union_find.h:84 return of Find, dispatched to the caller (34-43) *)
Definition find_return (k : kont) (el : nat) : pc * list pev :=
  match k with
  | KFind a => (Idle, [EFind a el])
  | KLhs rhs => (PF (KRhs el) (F1 rhs), [])
  | KRhs lhs => if lhs =? el then (Idle, [EUnionFalse lhs el]) else (R1 lhs el, [])
  end.

(* one step of a thread at a given program point: new arrays, new pc, new events *)
Definition pstep_pc (par rnk : list nat) (c : pc) : list nat * list nat * pc * list pev :=
  match c with
  | Idle => (par, rnk, Idle, [])
  | PF k (F1 el) =>                                               (* line 77 *)
      if nth el par 0 =? el then let '(c', ev) := find_return k el in (par, rnk, c', ev)
      else (par, rnk, PF k (F2 el), [])
  | PF k (F2 el) => (par, rnk, PF k (F3 el (nth el par 0)), [])     (* line 78 *)
  | PF k (F3 el next) => (par, rnk, PF k (F4 el next (nth next par 0)), [])  (* line 81 *)
  | PF k (F4 el next v) => (fst (cas par el next v), rnk, PF k (F5 next), [])  (* line 80 *)
  | PF k (F5 next) => (par, rnk, PF k (F1 (nth next par 0)), [])    (* line 82 *)
  | R1 lhs rhs => (par, rnk, R2 lhs rhs (nth lhs rnk 0), [])        (* line 45 *)
  | R2 lhs rhs rl =>                                              (* lines 46-53 *)
      let rr := nth rhs rnk 0 in
      if (rr <? rl) || ((rl =? rr) && (rhs <? lhs))
      then (par, rnk, U1 true rhs rr lhs rl, [])
      else (par, rnk, U1 true lhs rl rhs rr, [])
  | U1 b x xr y yr =>                                             (* line 102 *)
      if nth x par 0 =? x then (par, rnk, U2 b x xr y yr, [])
      else (par, rnk, after_update b false x xr y yr, after_events b false xr yr)
  | U2 b x xr y yr =>                                             (* line 102 *)
      if nth x rnk 0 =? xr then (par, rnk, U3 b x xr y yr, [])
      else (par, rnk, after_update b false x xr y yr, after_events b false xr yr)
  | U3 b x xr y yr =>                                             (* line 106 *)
      let '(par', ok) := cas par x x y in
      if ok then (par', rnk, U4 b x xr y yr, [])
      else (par', rnk, after_update b false x xr y yr, after_events b false xr yr)
  | U4 b x xr y yr => (par, rnk, U5 b x xr y yr (nth x rnk 0), [])  (* line 107 *)
  | U5 b x xr y yr r =>                                           (* line 107 *)
      let '(rnk', ok) := cas rnk x r yr in
      if ok then (par, rnk', after_update b true x xr y yr, after_events b true xr yr)
      else (par, rnk', U6 b x xr y yr, [])
  | U6 b x xr y yr =>                                             (* line 111-113 *)
      (fst (cas par x y x), rnk, after_update b false x xr y yr, after_events b false xr yr)
  end.

(* start of the next call of a thread's program (union_find.h:34-38, 76) *)
Definition pstart (o : pop) : pc :=
  match o with PUnion a b => PF (KLhs b) (F1 a) | PFind a => PF (KFind a) (F1 a) end.

(* ghost: the pair a starting call requests (union_find.h:34) *)
Definition ppair (o : pop) : list (nat * nat) :=
  match o with PUnion a b => [(a, b)] | PFind _ => [] end.

(* thread [t] makes one step; a finished or non-existing thread leaves the state unchanged *)
Definition pstep (s : pst) (t : nat) : pst :=
  match nth_error (pthr s) t with
  | None => s
  | Some (Idle, []) => s
  | Some (Idle, o :: prog) =>
      mk_pst (ppar s) (prnk s) (upd (pthr s) t (pstart o, prog)) (pissued s ++ ppair o) (pev_log s)
  | Some (c, prog) =>
      let '(par', rnk', c', ev) := pstep_pc (ppar s) (prnk s) c in
      mk_pst par' rnk' (upd (pthr s) t (c', prog)) (pissued s) (pev_log s ++ ev)
  end.

(* a schedule is the list of thread numbers that step *)
Definition prun (s : pst) (sched : list nat) : pst := fold_left pstep sched s.

(* all calls of all threads have returned *)
Definition pdone (s : pst) : Prop := Forall (fun cp => cp = (Idle, [])) (pthr s).
