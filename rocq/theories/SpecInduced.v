(* SpecInduced.v - the subgraph induced by a list of vertices, independent of the model: vertex i of the new graph
   stands for vertex nth i cs of the old one.  Graphs are lists of (target, weight) rows. *)
From Coq Require Export Sorted.
From Verif Require Export Lib.

Definition induced (rows : list (list (nat * N))) (cs : list nat) (rows' : list (list (nat * N))) : Prop :=
  length rows' = length cs /\ forall i, i < length cs ->
    map (fun e => (nth (fst e) cs 0, snd e)) (nth i rows' []) = filter (fun e => existsb (Nat.eqb (fst e)) cs) (nth (nth i cs 0) rows []) /\
    forall e, In e (nth i rows' []) -> fst e < length cs.
