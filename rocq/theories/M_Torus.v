(* M_Torus.v - model of app/gnp_torus.cpp: a generator of graphs, blocks of vertices arranged as a torus.  The random numbers are
   parameters: right i k and down i k are the pairs (r1, r2) for the k-th edge from block i to the right and down, pick b i m is the
   m-th partner drawn for vertex i of block b.  Ids and weights are unbounded. *)
From Verif Require Export SpecCut.

(* gnp_torus.cpp:70-71, 77-79, 90-92 the blocks to the right of and below block i; b: blocks_per_dimension *)
Definition right_of (b i : nat) : nat := i / b * b + (i mod b + 1) mod b.
(* gnp_torus.cpp:90-92 *)
Definition below (b i : nat) : nat := (i / b + 1) mod b * b + i mod b.
(* gnp_torus.cpp:68-97 the pairs (v1, v2) in the order in which they are made; each is entered at both ends *)
Definition interblock (b vpb cut : nat) (right down : nat -> nat -> nat * nat) : list (nat * nat) :=
  flat_map (fun i =>
    map (fun k => (vpb * i + fst (right i k), right_of b i * vpb + snd (right i k))) (seq 0 cut) ++
    map (fun k => (vpb * i + fst (down i k), below b i * vpb + snd (down i k))) (seq 0 cut)) (seq 0 (b * b)).
(* gnp_torus.cpp:81-82, 94-95 and 125-126, 139-142: how often v was entered at u *)
Definition both (ps : list (nat * nat)) (u v : nat) : N :=
  sumN (fun p => (if Nat.eqb (fst p) u && Nat.eqb (snd p) v then 1 else 0) + (if Nat.eqb (fst p) v && Nat.eqb (snd p) u then 1 else 0))%N ps.
(* gnp_torus.cpp:122-128 the pairs (i, r) of block bl *)
Definition inblock (vpb cut : nat) (pick : nat -> nat -> nat -> nat) (bl : nat) : list (nat * nat) :=
  flat_map (fun i => map (fun m => (i, pick bl i m)) (seq 0 (4 * cut + 1))) (seq 0 vpb).
(* gnp_torus.cpp:131-147 the edges of vertex i of block bl: those in the block, then the others in the order of std::map *)
Definition torus_row (n vpb : nat) (inter ins : list (nat * nat)) (bl i : nat) : list (nat * N) :=
  flat_map (fun j => if (0 <? both ins i j)%N then [(j + bl * vpb, both ins i j)] else []) (seq 0 vpb) ++
  flat_map (fun t => if (0 <? both inter (i + bl * vpb) t)%N then [(t, both inter (i + bl * vpb) t)] else []) (seq 0 n).
(* gnp_torus.cpp:57-151 the graph written; vertex i of block bl is i + bl * vpb *)
Definition gnp_torus (b vpb cut : nat) (right down : nat -> nat -> nat * nat) (pick : nat -> nat -> nat -> nat) : graph :=
  let n := b * b * vpb in
  map (fun v => torus_row n vpb (interblock b vpb cut right down) (inblock vpb cut pick (v / vpb)) (v / vpb) (v mod vpb)) (seq 0 n).
