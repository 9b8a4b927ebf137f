(* Prop_ParCapforest.v - C41: parallel CAPFOREST contracts only pairs of high connectivity *)
From Verif Require Export SpecRel SpecCut P_Cut M_CutHelpers M_ParCapforest P_Hier P_BucketPQ P_ParCapforest P_ParCapforest2 P_ParCapforest3.
From Verif Require Import SpecArtic.

(** Terms of the statements: [par_run dis G c starts sched = Some p]: the threads started at [starts], stepping in
    the order [sched] on a sequentially consistent memory, reach the state [p]; [unions_of p]: the pairs passed to
    uf.Union so far; [conn ps]: connected by these pairs (SpecRel); [agree (p_tr p)]: no thread read visited[tgt] as
    false in line 221 and then as true in line 226. *)

(** For every graph, bound, number of threads, starting vertices and interleaving, finished or not: if the two reads
    of visited[tgt] in lines 221 and 226 never disagree, then vertices joined have connectivity at least the bound.
    Missing for C41: executions in which they disagree (C41_refuted), bounds from 2^31 - 1 on (the queue then needs
    more than 2^32 buckets). *)
Theorem C41_capforest_connectivity_partial : forall dis G c starts sched p, undirected G -> (c + 1 < 2147483648)%N ->
  (forall v, In v starts -> v < length G) ->
  par_run dis G c starts sched = Some p -> agree (p_tr p) ->
  forall x y, conn (unions_of p) x y -> conn_ge (length G) (wt G) c x y.
Proof.
  intros dis G c starts sched p U H32 HS E AG x y. unfold par_run in E.
  destruct (init_good G c H32 starts HS) as [l [El [_ Il]]]. rewrite El in E.
  apply (good_conn G c (p_th p) p). eapply (par_good G c U H32); eauto.
  split; [exact Il|]. intros i a b [].
Qed.
Print Assumptions C41_capforest_connectivity_partial.

(** The same whatever values the reads of visited[] return, as a racy or weakly ordered memory might: only the
    agreement of the two reads matters. *)
Theorem C41_any_memory_partial : forall dis G c starts sched p, undirected G -> (c + 1 < 2147483648)%N ->
  (forall v, In v starts -> v < length G) ->
  any_run dis G c starts sched = Some p -> agree (p_tr p) ->
  forall x y, conn (unions_of p) x y -> conn_ge (length G) (wt G) c x y.
Proof.
  intros dis G c starts sched p U H32 HS E AG x y. unfold any_run in E.
  destruct (init_good G c H32 starts HS) as [l [El [_ Il]]]. rewrite El in E.
  apply (good_conn G c (p_th p) p). eapply (any_good G c U H32); eauto.
  split; [exact Il|]. intros i a b [].
Qed.
Print Assumptions C41_any_memory_partial.

(** With disable_blacklist the claim holds for every interleaving of any number of threads. *)
Theorem C41_disable_blacklist : forall G c starts sched p, undirected G -> (c + 1 < 2147483648)%N ->
  (forall v, In v starts -> v < length G) ->
  par_run true G c starts sched = Some p ->
  forall x y, conn (unions_of p) x y -> conn_ge (length G) (wt G) c x y.
Proof.
  intros G c starts sched p U H32 HS E. apply (C41_capforest_connectivity_partial true G c starts sched p U H32 HS E).
  unfold par_run in E. destruct (safe_all G c H32 starts HS) as [l [El [_ Il]]]. rewrite El in E.
  apply (nolist_agree G c _ _ _ E); cbn [p_vis p_th p_tr].
  - intro x. apply nth_repeat_any.
  - intros s Hs. apply Il. auto.
  - intros i t [].
Qed.
Print Assumptions C41_disable_blacklist.

(** With one thread the claim holds. *)
Theorem C41_one_thread : forall dis G c start sched p, undirected G -> (c + 1 < 2147483648)%N -> start < length G ->
  par_run dis G c [start] sched = Some p ->
  forall x y, conn (unions_of p) x y -> conn_ge (length G) (wt G) c x y.
Proof.
  intros dis G c start sched p U H32 HS E.
  assert (HS' : forall v, In v [start] -> v < length G) by (intros v [<-|[]]; auto).
  apply (C41_capforest_connectivity_partial dis G c [start] sched p U H32 HS' E).
  unfold par_run in E. destruct (safe_all G c H32 [start] HS') as [l [El [Ll Il]]]. rewrite El in E.
  apply (single_agree G c H32 dis _ _ _ E); cbn [p_vis p_th p_tr].
  - rewrite Ll. reflexivity.
  - intros s v t k es Hs P. destruct (Il s Hs) as [_ [_ [P' _]]]. congruence.
  - intros i t [].
Qed.
Print Assumptions C41_one_thread.

(** Under every interleaving no thread accesses an array or the queue out of range, and once each thread has taken
    1 + sum over the vertices of (4 + 3 * number of incident edges) steps, all have finished. *)
Theorem C41_safe_terminates : forall dis G c starts sched, undirected G -> (c + 1 < 2147483648)%N ->
  (forall v, In v starts -> v < length G) ->
  exists p, par_run dis G c starts sched = Some p /\
    ((forall i, i < length starts ->
        1 + list_sum (map (fun es => 4 + 3 * length es) G) <= count_occ Nat.eq_dec sched i) -> finished p).
Proof.
  intros dis G c starts sched U H32 HS. destruct (run_facts dis G c starts sched U H32 HS) as [p [E [_ F]]]. exists p. auto.
Qed.
Print Assumptions C41_safe_terminates.

(** The claim as stated is false.  Vertices 0-1 (weight 4), 0-2, 1-2 (weight 1), 2-3 (weight 10); the bound 5 is the
    minimum degree; the minimum cut is {0,1} with weight 2.  Thread 0 scans 0 and reads visited[1] = false, so it adds 4 to
    r_v[1]; thread 1 then marks vertex 1; thread 0 reads visited[1] again, now true, and does not queue vertex 1.  It goes on
    to scan vertex 2 and joins 2 with 1 because r_v[1] + 1 >= 5, although they have connectivity 2.  When all threads
    have finished, every cut lighter than the bound is destroyed by the joined pairs. *)
Definition race_g : graph := gr [[(1,4);(2,1)];[(0,4);(2,1)];[(0,1);(1,1);(3,10)];[(2,10)]].
Definition race_s : list nat := [1;1; 0;0;0;0;0; 1; 0] ++ repeat 0 20 ++ repeat 1 20.

Lemma race_cut (S : nat -> bool) : cutw 4 (wt race_g) S =
  N.of_nat (4 * Nat.b2n (xorb (S 0) (S 1)) + Nat.b2n (xorb (S 0) (S 2)) + Nat.b2n (xorb (S 1) (S 2)) + 10 * Nat.b2n (xorb (S 2) (S 3))).
Proof. unfold cutw, bsum. cbn [seq sumN]. unfold wt, race_g, gr. cbn. destruct (S 0), (S 1), (S 2), (S 3); reflexivity. Qed.

Lemma race_mincut : mincut_of race_g 2.
Proof.
  unfold mincut_of. change (length race_g) with 4. split.
  - exists (fun v => v <? 2). split; [split; [exists 0|exists 2]; split; auto; lia|]. rewrite race_cut. reflexivity.
  - intros S [[a [Ha Sa]] [b [Hb Sb]]]. rewrite race_cut.
    destruct a as [|[|[|[|]]]]; try lia; destruct b as [|[|[|[|]]]]; try lia; try congruence;
      destruct (S 0), (S 1), (S 2), (S 3); try discriminate; vm_compute; discriminate.
Qed.

Theorem C41_refuted : exists G c starts sched p, undirected G /\ (c + 1 < 2147483648)%N /\ (forall v, In v starts -> v < length G) /\
  par_run false G c starts sched = Some p /\ finished p /\ mincut_of G 2 /\ c = 5%N /\ min_degree G = 5%N /\
  (exists x y, In (x, y) (unions_of p) /\ ~ conn_ge (length G) (wt G) c x y) /\
  forall S, proper (length G) S -> (cutw (length G) (wt G) S < c)%N -> exists x y, In (x, y) (unions_of p) /\ S x <> S y.
Proof.
  exists race_g, 5%N, [0; 1], race_s.
  destruct (par_run false race_g 5 [0; 1] race_s) as [p|] eqn:E; [|vm_compute in E; discriminate E].
  assert (UN : unions_of p = [(2, 1); (2, 3)]) by (vm_compute in E; injection E as <-; vm_compute; reflexivity).
  exists p. split; [apply undirectedb_ok; vm_compute; reflexivity|]. split; [lia|].
  split; [intros v [<-|[<-|[]]]; vm_compute; lia|]. split; [reflexivity|].
  split; [vm_compute in E; injection E as <-; intros s [<-|[<-|[]]]; reflexivity|].
  split; [exact race_mincut|]. change (length race_g) with 4.
  split; [reflexivity|]. split; [reflexivity|]. rewrite UN. split.
  - exists 2, 1. split; [left; auto|]. intro H. specialize (H (fun v => v <? 2)). rewrite race_cut in H.
    specialize (H ltac:(discriminate)). vm_compute in H. apply H. reflexivity.
  - intros S [[a [Ha Sa]] [b [Hb Sb]]] L. rewrite race_cut in L.
    destruct (Bool.bool_dec (S 2) (S 1)) as [D|D]; [|exists 2, 1; split; [left; auto|auto]].
    destruct (Bool.bool_dec (S 2) (S 3)) as [D'|D']; [|exists 2, 3; split; [right; left; auto|auto]].
    exfalso. destruct a as [|[|[|[|]]]]; try lia; destruct b as [|[|[|[|]]]]; try lia; try congruence;
      destruct (S 0), (S 1), (S 2), (S 3); try discriminate; vm_compute in L; discriminate L.
Qed.
Print Assumptions C41_refuted.

(** Two threads in lock step on the same graph meet the hypotheses of C41_capforest_connectivity_partial and join 2 and 3. *)
Example C41_lock_step : exists p, par_run false race_g 5 [0; 1] (flat_map (fun _ => [0; 1]) (seq 0 30)) = Some p /\
  agree (p_tr p) /\ In (2, 3) (unions_of p) /\ finished p.
Proof.
  destruct (par_run false race_g 5 [0; 1] (flat_map (fun _ => [0; 1]) (seq 0 30))) as [p|] eqn:E; [|vm_compute in E; discriminate E].
  exists p. split; [reflexivity|]. vm_compute in E. injection E as <-. split; [|split].
  - intros i t H. cbn [p_tr] in H. repeat (destruct H as [H|H]; [discriminate H|]). contradiction.
  - vm_compute. auto.
  - intros s [<-|[<-|[]]]; reflexivity.
Qed.

(** The same without the blacklist. *)
Example C41_no_blacklist_run : exists p, par_run true race_g 5 [0; 3] (flat_map (fun _ => [0; 1]) (seq 0 30)) = Some p /\
  In (2, 3) (unions_of p) /\ ~ In (2, 1) (unions_of p) /\ finished p.
Proof.
  destruct (par_run true race_g 5 [0; 3] (flat_map (fun _ => [0; 1]) (seq 0 30))) as [p|] eqn:E; [|vm_compute in E; discriminate E].
  exists p. split; [reflexivity|]. vm_compute in E. injection E as <-. split; [|split].
  - vm_compute. auto 10.
  - vm_compute. intro H. repeat (destruct H as [H|H]; [discriminate H|]). contradiction.
  - intros s [<-|[<-|[]]]; reflexivity.
Qed.

(** One thread. *)
Example C41_one_thread_run : exists p, par_run false race_g 5 [0] (repeat 0 60) = Some p /\ In (2, 3) (unions_of p) /\ finished p.
Proof.
  destruct (par_run false race_g 5 [0] (repeat 0 60)) as [p|] eqn:E; [|vm_compute in E; discriminate E].
  exists p. split; [reflexivity|]. vm_compute in E. injection E as <-. split; [vm_compute; auto 10|].
  intros s [<-|[]]; reflexivity.
Qed.

(** A memory that returns wrong values: thread 0 reads visited[2] as true throughout. *)
Example C41_any_memory_run : exists p, any_run false race_g 5 [3; 0] (map (fun i => (i, false)) (flat_map (fun _ => [0; 1]) (seq 0 4)) ++
   [(0, true)] ++ map (fun i => (i, false)) (flat_map (fun _ => [0; 1]) (seq 0 30))) = Some p /\ agree (p_tr p) /\ In (3, 2) (unions_of p).
Proof.
  match goal with |- exists p, ?r = _ /\ _ => destruct r as [p|] eqn:E; [|vm_compute in E; discriminate E] end.
  exists p. split; [reflexivity|]. vm_compute in E. injection E as <-. split.
  - intros i t H. cbn [p_tr] in H. repeat (destruct H as [H|H]; [discriminate H|]). contradiction.
  - vm_compute. auto 10.
Qed.

(** No vertex is left out: under every interleaving, once all threads have finished, every vertex that is reachable from
    the start vertex of some thread has been marked as visited. *)
Theorem C41_scans_all : forall G c starts sched p, undirected G -> (0 < c)%N -> (c + 1 < 2147483648)%N -> (forall v, In v starts -> v < length G) ->
  par_run false G c starts sched = Some p -> finished p ->
  forall s v, In s starts -> joined (fun a b => exists w, In (b, w) (nth a G [])) (fun _ => True) s v -> nth v (p_vis p) false = true.
Proof.
  intros G c starts sched p U C0 H32 HS E F s v Hs J. destruct (visits G c U H32 C0 starts sched p HS E F) as [A B]. specialize (A s Hs). clear Hs.
  induction J as [u _|u x w _ [wt Hx] J IH]; [exact A|]. apply IH. exact (B u x wt A Hx).
Qed.
Print Assumptions C41_scans_all.

Example C41_scans_all_run : exists p, par_run false race_g 5 [0; 1] race_s = Some p /\ finished p /\ p_vis p = [true; true; true; true].
Proof.
  destruct (par_run false race_g 5 [0; 1] race_s) as [p|] eqn:E; [|vm_compute in E; discriminate E].
  exists p. split; [reflexivity|]. vm_compute in E. injection E as <-. split; [|reflexivity]. intros s [<-|[<-|[]]]; reflexivity.
Qed.
