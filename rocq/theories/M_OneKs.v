(* M_OneKs.v - model of sparsify::one_ks (coarsening/sparsify.h): contraction along edges drawn with a probability meant to be
   proportional to their weight.  The numbers of the mt19937_64 generator are the list draws (the loop itself has no bound; a run
   that is not finished after these draws is None); the product number of nodes times contraction factor, computed in double,
   is the parameter red.  Weights and their sums are unbounded. *)
From Verif Require Export M_Heur.

(* ks_minimum_cut.h:125-130, graph_access.h:338-345, 325-328 edge number e: its source, target and weight *)
Definition flat_wedges (G : graph) : list (nat * nat * N) :=
  flat_map (fun v => map (fun e => (v, fst e, snd e)) (nth v G [])) (seq 0 (length G)).

(* ks_minimum_cut.h:121-130 prefixsum; wgt: the sum so far *)
Fixpoint prefixsum (wgt : N) (ws : list N) : list N :=
  match ws with
  | [] => []
  | w :: ws' => (wgt + w)%N :: prefixsum (wgt + w)%N ws'
  end.

(* ks_minimum_cut.h:140-146 std::lower_bound: the first place whose entry is not below r (prefixsum is sorted) *)
Fixpoint lower_bound (p : list N) (r : N) : nat :=
  match p with
  | [] => 0
  | x :: p' => if (x <? r)%N then S (lower_bound p' r) else 0
  end.

(* ks_minimum_cut.h:132, 138-148 the edge that the number d of the generator leads to; None: modulo zero, or past the end *)
Definition draw_edge (es : list (nat * nat * N)) (d : N) : option (nat * nat * N) :=
  let num_edges := sumN snd es in
  if (num_edges =? 0)%N then None
  else nth_error es (lower_bound (prefixsum 0 (map snd es)) (d mod num_edges)%N).

(* ks_minimum_cut.h:137-155 the loop; need: n_reduce - contracted *)
Fixpoint wks_sample (es : list (nat * nat * N)) (need : nat) (u : uf) (draws : list N) : option uf :=
  match need with
  | 0 => Some u
  | S need' =>
      match draws with
      | [] => None
      | d :: ds =>
          match draw_edge es d with
          | None => None
          | Some (s, t, _) =>
              match uf_union u s t with
              | None => None
              | Some (u', true) => wks_sample es need' u' ds
              | Some (u', false) => wks_sample es need u' ds
              end
          end
      end
  end.

(* ks_minimum_cut.h:115-117 n_reduce, for at least two vertices (currentN - 2 is unsigned) *)
Definition n_reduce (red currentN : nat) : nat := Nat.min red (currentN - 2).

(* sparsify.h:24-49 *)
Definition one_ks (ord : nat -> list nat -> list nat) (red : nat) (draws : list N) (G : graph) : option (graph * list nat) :=
  match wks_sample (flat_wedges G) (n_reduce red (length G)) (uf_init (length G)) draws with
  | None => None
  | Some u => from_union_find ord G u
  end.
