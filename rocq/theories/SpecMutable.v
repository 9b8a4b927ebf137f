(* SpecMutable.v - specification: validity of a graph given by rows of half edges, as checked by
   checkGraphValidity (lib/algorithms/misc/graph_algorithms.h:104-180) but with parallel edges allowed.
   Independent of the models. *)
From Verif Require Export SpecCut.

(** half edge: target, weight, index of the reverse half edge in the row of the target *)
Definition half := (nat * N * nat)%type.

(** every half edge points to another vertex and its reverse is where it says, with the same weight *)
Definition valid_rows (rows : list (list half)) : Prop :=
  forall v e t w r, nth_error (nth v rows []) e = Some (t, w, r) ->
    t < length rows /\ t <> v /\ nth_error (nth t rows []) r = Some (v, w, e).

(** the graph without the reverse indices *)
Definition adj (rows : list (list half)) : graph := map (map (fun h => (fst (fst h), snd (fst h)))) rows.

(** cached degrees and edge count are exact *)
Definition degrees_exact (rows : list (list half)) (degs : list N) : Prop :=
  length degs = length rows /\
  forall v, v < length rows -> nth v degs 0%N = sumN (fun h => snd (fst h)) (nth v rows []).
Definition count_exact (rows : list (list half)) (m : N) : Prop := m = sumN (fun row => N.of_nat (length row)) rows.

(** groups: the original vertices listed at p are exactly those positioned at p *)
Definition groups_exact (n : nat) (cont : list (list nat)) (pos : list nat) : Prop :=
  n <= length cont /\
  forall p x, p < n -> (In x (nth p cont []) <-> x < length pos /\ nth x pos 0 = p).

(** f merges exactly the vertices of S *)
Definition merges (n : nat) (S : nat -> Prop) (f : nat -> nat) : Prop :=
  forall u v, u < n -> v < n -> (f u = f v <-> u = v \/ (S u /\ S v)).
