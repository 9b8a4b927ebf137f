(* SpecCut.v - specification: weighted graphs as weight functions, cuts, minimum cuts, edge
   connectivity, and the reading of an adjacency-list graph as a weight function.
   Independent of the models. *)
From Verif Require Export Lib.

(** [W u v]: total weight of the edges from u to v *)
Definition wfun := nat -> nat -> N.

Definition symm (n : nat) (W : wfun) : Prop := forall u v, u < n -> v < n -> W u v = W v u.
Definition loopfree (n : nat) (W : wfun) : Prop := forall u, u < n -> W u u = 0%N.

(** weight of the cut between the vertices in [S] and the others *)
Definition cutw (n : nat) (W : wfun) (S : nat -> bool) : N :=
  bsum n (fun u => bsum n (fun v => if S u && negb (S v) then W u v else 0%N)).

(** [S] and its complement are both non-empty *)
Definition proper (n : nat) (S : nat -> bool) : Prop :=
  (exists u, u < n /\ S u = true) /\ (exists v, v < n /\ S v = false).

(** [c] is the minimum cut value *)
Definition is_mincut (n : nat) (W : wfun) (c : N) : Prop :=
  (exists S, proper n S /\ cutw n W S = c) /\ forall S, proper n S -> (c <= cutw n W S)%N.

(** u and v have edge connectivity at least k: every cut separating them weighs at least k *)
Definition conn_ge (n : nat) (W : wfun) (k : N) (u v : nat) : Prop :=
  forall S, S u <> S v -> (k <= cutw n W S)%N.

(** weighted degree *)
Definition wdeg (n : nat) (W : wfun) (u : nat) : N := bsum n (fun v => if v =? u then 0%N else W u v).

(** adjacency-list graph: entry u lists (target, weight) *)
Definition graph := list (list (nat * N)).
Definition wt (g : graph) : wfun :=
  fun u v => sumN snd (filter (fun e => fst e =? v) (nth u g [])).

(** an undirected graph: targets in range, no self loops, both directions carry the same weight *)
Definition undirected (g : graph) : Prop :=
  (forall u v w, In (v, w) (nth u g []) -> v < length g /\ v <> u) /\ symm (length g) (wt g).

(** minimum cut value of an adjacency-list graph *)
Definition mincut_of (g : graph) (c : N) : Prop := is_mincut (length g) (wt g) c.

(** [W'] on [n'] vertices is [W] on [n] vertices contracted along the clustering [f] *)
Definition contraction_of (n : nat) (W : wfun) (f : nat -> nat) (n' : nat) (W' : wfun) : Prop :=
  forall p q, p < n' -> q < n' -> p <> q ->
    W' p q = bsum n (fun u => bsum n (fun v => if (f u =? p) && (f v =? q) then W u v else 0%N)).

(** [f] maps the n vertices onto the n' clusters *)
Definition clustering (n : nat) (f : nat -> nat) (n' : nat) : Prop :=
  (forall u, u < n -> f u < n') /\ (forall p, p < n' -> exists u, u < n /\ f u = p).

(** notation for concrete graphs in examples *)
Definition gr (l : list (list (nat * nat))) : graph := map (map (fun e => (fst e, N.of_nat (snd e)))) l.
