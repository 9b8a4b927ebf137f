(* M_MakeWeighted.v - model of app/make_graph_weighted.cpp: random weights for a graph.  The random numbers are parameters: pick n
   is the place (among the edges of n) of the edge that nextInt chooses, draw k the k-th weight from nextInt(min, max).  The keys of
   get_uint64_from_pair are the pairs (smaller, larger); weights are unbounded.  None: nextInt of an empty range. *)
From Verif Require Export SpecCut.

(* parallel/coarsening/contract_graph.h:49-55 get_uint64_from_pair *)
Definition mw_key (a b : nat) : nat * nat := if b <? a then (b, a) else (a, b).
(* make_graph_weighted.cpp:72-73 equality of keys in heavy_edges and edge_weights *)
Definition key_eqb (p q : nat * nat) : bool := (fst p =? fst q) && (snd p =? snd q).
(* make_graph_weighted.cpp:76-89 heavy_edges *)
Fixpoint mw_heavy (G : graph) (pick : nat -> nat) (ns : list nat) : option (list (nat * nat)) :=
  match ns with
  | [] => Some []
  | n :: ns' =>
      match nth_error (nth n G []) (pick n) with
      | None => None
      | Some (t, _) => option_map (cons (mw_key n t)) (mw_heavy G pick ns')
      end
  end.
(* make_graph_weighted.cpp:73, 108, 110 edge_weights; operator[] makes a missing entry 0 *)
Definition mw_map := nat * nat -> option N.
(* make_graph_weighted.cpp:108 *)
Definition mw_put (mp : mw_map) (p : nat * nat) (w : N) : mw_map := fun q => if key_eqb q p then Some w else mp q.
(* make_graph_weighted.cpp:110 *)
Definition mw_get (mp : mw_map) (p : nat * nat) : N := match mp p with Some w => w | None => 0%N end.
(* make_graph_weighted.cpp:99-113 the edges of n; k: weights drawn so far *)
Fixpoint mw_row (heavy : list (nat * nat)) (multi : N) (draw : nat -> N) (n k : nat) (mp : mw_map) (es : list (nat * N)) : nat * mw_map * list (nat * N) :=
  match es with
  | [] => (k, mp, [])
  | (t, _) :: es' =>
      let p := mw_key n t in
      if n <? t then
        let w := if existsb (key_eqb p) heavy then (draw k * multi)%N else draw k in
        let '(k', mp', r) := mw_row heavy multi draw n (S k) (mw_put mp p w) es' in (k', mp', (t, w) :: r)
      else
        let w := mw_get mp p in
        let '(k', mp', r) := mw_row heavy multi draw n k (mw_put mp p w) es' in (k', mp', (t, w) :: r)
  end.
(* make_graph_weighted.cpp:91-114 all vertices; the rows are written in place, so each vertex sees its old edges only *)
Fixpoint mw_rows (heavy : list (nat * nat)) (multi : N) (draw : nat -> N) (n k : nat) (mp : mw_map) (rows : graph) : graph :=
  match rows with
  | [] => []
  | es :: rows' => let '(k', mp', r) := mw_row heavy multi draw n k mp es in r :: mw_rows heavy multi draw (S n) k' mp' rows'
  end.
(* make_graph_weighted.cpp:69-118 the graph that is written *)
Definition make_weighted (G : graph) (pick : nat -> nat) (multi : N) (draw : nat -> N) : option graph :=
  option_map (fun heavy => mw_rows heavy multi draw 0 0 (fun _ => None) G) (mw_heavy G pick (seq 0 (length G))).
