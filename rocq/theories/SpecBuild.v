(* SpecBuild.v - specification of graph construction: which edges a build script asks for.
   Independent of the proofs; the script type is that of the public interface. *)
From Verif Require Export M_Graph.
From Coq Require Export Sorting.Sorted.

(** the edges requested, with their source, in order *)
Fixpoint req_edges (ops : list bop) : list (nat * (nat * N)) :=
  match ops with
  | [] => []
  | BNode :: r => req_edges r
  | BEdge s t w :: r => (s, (t, w)) :: req_edges r
  end.

(** edges requested for node v, self loops left out *)
Definition req_adj (ops : list bop) (v : nat) : list (nat * N) :=
  map snd (filter (fun e => (fst e =? v) && negb (fst (snd e) =? v)) (req_edges ops)).

(** number of new_node calls *)
Definition req_nodes (ops : list bop) : nat :=
  length (filter (fun o => match o with BNode => true | _ => false end) ops).

(** a legal script for n nodes: n new_node calls, edges in ascending order of their source, all
    endpoints in range *)
Definition legal (n : nat) (ops : list bop) : Prop :=
  req_nodes ops = n /\ StronglySorted le (map fst (req_edges ops)) /\
  forall s t w, In (s, (t, w)) (req_edges ops) -> s < n /\ t < n.
