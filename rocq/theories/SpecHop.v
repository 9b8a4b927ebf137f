(* SpecHop.v - walks and hop distance, independent of the model.  A graph is the list of target lists. *)
From Verif Require Export Lib.

(* [hop nb s v k]: a walk with k edges from s to v *)
Inductive hop (nb : list (list nat)) (s : nat) : nat -> nat -> Prop :=
| hop_0 : hop nb s s 0
| hop_S v w k : hop nb s v k -> In w (nth v nb []) -> hop nb s w (S k).

Definition reach (nb : list (list nat)) (s v : nat) : Prop := exists k, hop nb s v k.
(* the hop distance *)
Definition hopdist (nb : list (list nat)) (s v k : nat) : Prop := hop nb s v k /\ forall k', hop nb s v k' -> k <= k'.
