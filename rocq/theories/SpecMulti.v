(* SpecMulti.v - specification: multiterminal cuts.  Independent of the models. *)
From Verif Require Export SpecCut.

(** weight between different blocks of the assignment f, every unordered pair counted once *)
Definition mtcost (n : nat) (W : wfun) (f : nat -> nat) : N :=
  bsum n (fun u => bsum n (fun v => if (u <? v) && negb (f u =? f v) then W u v else 0%N)).

(** f puts every vertex into one of |ts| blocks, the i-th terminal into block i *)
Definition separates (n : nat) (ts : list nat) (f : nat -> nat) : Prop :=
  (forall v, v < n -> f v < length ts) /\ forall i, i < length ts -> f (nth i ts 0) = i.

(** c is the optimal value *)
Definition mtopt (n : nat) (W : wfun) (ts : list nat) (c : N) : Prop :=
  (exists f, separates n ts f /\ mtcost n W f = c) /\ (forall f, separates n ts f -> (c <= mtcost n W f)%N).
