(* SpecFlow.v - specification: isolating cuts and preflows.  Independent of the models. *)
From Verif Require Export SpecMutable LibZ.

(** [S] contains [src] and no other terminal *)
Definition isolating (ts : list nat) (src : nat) (S : nat -> bool) : Prop :=
  S src = true /\ forall t, In t ts -> t <> src -> S t = false.

(** [S] is an isolating set of minimum weight [c] *)
Definition min_isolating (n : nat) (W : wfun) (ts : list nat) (src : nat) (S : nat -> bool) (c : N) : Prop :=
  isolating ts src S /\ cutw n W S = c /\ forall S', isolating ts src S' -> (c <= cutw n W S')%N.

(** half edge e of vertex v *)
Definition hedge (R : list (list half)) (v e : nat) (t : nat) (w : N) (r : nat) : Prop :=
  nth_error (nth v R []) e = Some (t, w, r).

(** sum of the flow over the half edges that end in v *)
Definition inflow (R : list (list half)) (F : nat -> nat -> Z) (v : nat) : Z :=
  zs (seq 0 (length (nth v R []))) (fun e => match nth_error (nth v R []) e with Some (t, _, r) => F t r | None => 0%Z end).

(** flow [F v e] on half edge e of v, excess, distance levels *)
Record preflow (R : list (list half)) (src : nat) (F : nat -> nat -> Z) (ex : nat -> Z) (d : nat -> nat) : Prop := {
  pf_antisymmetric : forall v e t w r, hedge R v e t w r -> F t r = (- F v e)%Z;
  pf_capacity : forall v e t w r, hedge R v e t w r -> (F v e <= Z.of_N w)%Z;
  pf_excess : forall v, v < length R -> v <> src -> ex v = inflow R F v;
  pf_nonneg : forall v, v < length R -> v <> src -> (0 <= ex v)%Z;
  pf_levels : forall v e t w r, hedge R v e t w r -> (F v e < Z.of_N w)%Z -> d v <= S (d t) }.
