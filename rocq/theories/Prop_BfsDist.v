(* Prop_BfsDist.v - property C48: bfsDistances computes hop distances, parents and a farthest vertex. *)
From Verif Require Import M_BfsDist P_BfsDist SpecHop M_GraphAlg P_Mutable Prop_Mutable.

Theorem C48_bfs_distances : forall nb start, start < length nb -> (forall v w, In w (nth v nb []) -> w < length nb) ->
  exists par dist far, bfs_distances nb start = Some (par, dist, Some far) /\ length par = length nb /\ length dist = length nb /\
    (forall v, reach nb start v -> hopdist nb start v (nth v dist 0)) /\
    (forall v, reach nb start v -> v <> start ->
       exists p, nth v par None = Some p /\ reach nb start p /\ In v (nth p nb []) /\ hopdist nb start p (nth v dist 0 - 1)) /\
    (forall v, v = start \/ ~ reach nb start v -> nth v par None = None /\ nth v dist 0 = 0) /\
    reach nb start far /\ (forall v k, hopdist nb start v k -> exists k', hopdist nb start far k' /\ k <= k').
Proof.
  intros nb start Hs Hnb. destruct (bfs_distances_ok nb start Hs Hnb) as (par & dist & far & E & L1 & L2 & D & P & U & (f & k & -> & Hf & M)).
  exists par, dist, f. split; [exact E|]. split; [exact L1|]. split; [exact L2|]. split; [exact D|]. split; [|split; [exact U|]].
  - intros v Hv NS. destruct (P v Hv NS) as (p & A & B & C & F). exists p. split; [exact A|]. split; [exact B|]. split; [exact C|]. rewrite F. replace (S (nth p dist 0) - 1) with (nth p dist 0) by lia. apply D, B.
  - split; [exists k; exact Hf|]. intros v k0 [Hk Hk']. exists (nth f dist 0). split; [apply D; exists k; exact Hf|].
    destruct (D v (ex_intro _ k0 Hk)) as [D1 _]. pose proof (Hk' _ D1). pose proof (M v (ex_intro _ k0 Hk)). lia.
Qed.
Print Assumptions C48_bfs_distances.

(** every graph reached by the operations of mutable_graph satisfies the hypothesis *)
Theorem C48_mutable : forall G start, mvalid G -> start < m_n G ->
  exists par dist far, bfs_distances (targets G) start = Some (par, dist, Some far) /\
    (forall v, reach (targets G) start v -> hopdist (targets G) start v (nth v dist 0)) /\
    (forall v, reach (targets G) start v -> nth v dist 0 <= nth far dist 0).
Proof.
  intros G start V Hs. assert (LN : length (targets G) = m_n G) by (unfold targets, m_n; apply map_length).
  destruct (C48_bfs_distances (targets G) start) as (par & dist & far & E & _ & _ & D & _ & _ & R & M).
  - rewrite LN. exact Hs.
  - intros v w H. rewrite LN. unfold targets in H. change (@nil nat) with (map (fun x : half => fst (fst x)) []) in H. rewrite map_nth in H. apply in_map_iff in H as ([[t wt] r] & <- & H). cbn [fst].
    apply In_nth_error in H as [e H]. apply (proj1 V v e t wt r H).
  - exists par, dist, far. split; [exact E|]. split; [exact D|]. intros v Hv. destruct (M v _ (D v Hv)) as (k' & [_ K] & L). destruct (D far R) as [D1 _]. pose proof (K _ D1). lia.
Qed.
Print Assumptions C48_mutable.

(* two branches of different length and an unreachable vertex; vertex 4 is found last *)
Example c48_run : bfs_distances [[1; 2]; [0; 3]; [0]; [1; 4]; [3]; []] 0 = Some ([None; Some 0; Some 0; Some 1; Some 3; None], [0; 1; 1; 2; 3; 0], Some 4) /\
  bfs_distances [[1]; [0; 2; 3]; [1; 3]; [1; 2]] 0 = Some ([None; Some 0; Some 1; Some 1], [0; 1; 2; 2], Some 3).
Proof. vm_compute. repeat split. Qed.
