(* SpecPR.v - specification for contraction tests: which cuts a set of contractions has to respect.
   Independent of the models. *)
From Verif Require Export SpecCut.

(** [S] is a minimum cut of weight below [limit] *)
Definition mincut_below (G : graph) (limit : N) (S : nat -> bool) : Prop :=
  proper (length G) S /\ (forall S', proper (length G) S' -> (cutw (length G) (wt G) S <= cutw (length G) (wt G) S')%N) /\
  (cutw (length G) (wt G) S < limit)%N.

(** at most one entry per neighbour *)
Definition noparallel (G : graph) : Prop := forall u, NoDup (map fst (nth u G [])).
