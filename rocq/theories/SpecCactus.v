(* SpecCactus.v - specification: cactus graphs by their cycles.  Independent of the models. *)
From Verif Require Export SpecCut.

(** vertex number i of the closed walk q *)
Definition cv (q : list nat) (i : nat) : nat := nth (i mod length q) q 0.

(** q is a simple cycle *)
Definition cycle (n : nat) (W : wfun) (q : list nat) : Prop :=
  3 <= length q /\ NoDup q /\ forall i, cv q i < n /\ W (cv q i) (cv q (S i)) <> 0%N.

(** a and b are neighbours on q *)
Definition cycle_edge (q : list nat) (a b : nat) : Prop :=
  exists i, i < length q /\ ((a = cv q i /\ b = cv q (S i)) \/ (b = cv q i /\ a = cv q (S i))).

(** a connected graph in which two cycles share an edge only if they have the same edges, with weight c on edges outside of
    cycles and c / 2 on edges of cycles *)
Record cactus (n : nat) (W : wfun) (c : N) : Prop := {
  ca_connected : forall S, proper n S -> cutw n W S <> 0%N;
  ca_weights : forall u v, u < n -> v < n -> W u v <> 0%N ->
    (W u v = c /\ forall q, cycle n W q -> ~ cycle_edge q u v) \/ ((2 * W u v)%N = c /\ exists q, cycle n W q /\ cycle_edge q u v);
  ca_cycles : forall q q' a b, cycle n W q -> cycle n W q' -> cycle_edge q a b -> cycle_edge q' a b ->
    forall x y, cycle_edge q x y -> cycle_edge q' x y
}.

(** the size of a vertex set: its number of vertices, or the sum of their degrees; the balance of a cut is the smaller size *)
Definition set_size (degrees : bool) (n : nat) (W : wfun) (S : nat -> bool) : N :=
  bsum n (fun v => if S v then (if degrees then bsum n (W v) else 1%N) else 0%N).
Definition balance (degrees : bool) (n : nat) (W : wfun) (S : nat -> bool) : N :=
  N.min (set_size degrees n W S) (set_size degrees n W (fun v => negb (S v))).
