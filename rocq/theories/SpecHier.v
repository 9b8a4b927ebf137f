(* SpecHier.v - specification: hierarchies of contracted graphs, and marked vertex sets.
   Independent of the models. *)
From Verif Require Export SpecCut.

(** maps: cluster indices of the input graph G0 and of every later level; the last graph is H *)
Inductive hier (G0 : graph) : list (list nat) -> graph -> Prop :=
| hier_nil : hier G0 [] G0
| hier_snoc maps H m H' : hier G0 maps H -> undirected H' ->
    clustering (length H) (fun v => nth v m 0) (length H') ->
    contraction_of (length H) (wt H) (fun v => nth v m 0) (length H') (wt H') ->
    hier G0 (maps ++ [m]) H'.

(** the marked set *)
Definition marked (marks : list bool) (v : nat) : bool := nth v marks false.

(** the marks are a cut of G0 of weight c *)
Definition marks_ok (G0 : graph) (marks : list bool) (c : N) : Prop :=
  length marks = length G0 /\ proper (length G0) (marked marks) /\ cutw (length G0) (wt G0) (marked marks) = c.

