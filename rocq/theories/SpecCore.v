(* SpecCore.v - core numbers, independent of the model.  A graph is the list of target lists. *)
From Verif Require Export Lib.

(* every vertex of S has at least k of its edges inside S *)
Definition min_degree_set (nb : list (list nat)) (k : nat) (S : nat -> bool) : Prop :=
  forall u, S u = true -> u < length nb /\ k <= length (filter S (nth u nb [])).
(* v belongs to a subgraph of minimum degree k *)
Definition in_core (nb : list (list nat)) (k v : nat) : Prop := exists S, S v = true /\ min_degree_set nb k S.
(* c is the largest such k *)
Definition core_number (nb : list (list nat)) (v c : nat) : Prop := in_core nb c v /\ forall k, in_core nb k v -> k <= c.
(* an undirected graph: every edge is listed at both ends, the same number of times *)
Definition both_ends (nb : list (list nat)) : Prop :=
  (forall v w, v < length nb -> In w (nth v nb []) -> w < length nb) /\
  forall u v, u < length nb -> v < length nb -> count_occ Nat.eq_dec (nth u nb []) v = count_occ Nat.eq_dec (nth v nb []) u.
