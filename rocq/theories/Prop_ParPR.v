(* Prop_ParPR.v - property C68: the parallel Padberg-Rinaldi tests under every interleaving, together with
   the concurrent union-find. *)
From Verif Require Import SpecRel SpecCut SpecHier SpecPR M_UnionFind P_UnionFind M_PRTests M_ParPR P_Cut P_Contract P_Hier P_PR P_PRTests P_ParPR P_Check Prop_Noi Prop_PRTests.
From Verif Require M_ParUnionFind Prop_ParUnionFind.


(** the union-find was only asked to join pairs the tests asked for *)
Definition requested (log : list (nat * nat)) (progs : list (list M_ParUnionFind.pop)) : Prop :=
  forall p a b, In p progs -> In (M_ParUnionFind.PUnion a b) p -> In (a, b) log.

(** two vertices for which Find gave the same answer *)
Definition together (u : M_ParUnionFind.pst) (a b : nat) : Prop := exists r, In (M_ParUnionFind.EFind a r) (M_ParUnionFind.pev_log u) /\ In (M_ParUnionFind.EFind b r) (M_ParUnionFind.pev_log u).

Lemma together_conn n log progs usched a b : requested log progs -> Forall (Forall (P_ParUnionFind.pop_lt n)) progs ->
  together (M_ParUnionFind.prun (M_ParUnionFind.pinit n progs) usched) a b -> conn log a b.
Proof.
  intros R F [r [Ha Hb]]. destruct (Prop_ParUnionFind.C03_par_uf_sound n progs usched F) as [X _].
  specialize (X a b r Ha Hb). revert X. apply conn_in_relation.
  - apply conn_refl.
  - intros x y H. apply conn_sym. auto.
  - intros x y z H K. apply conn_trans with y; auto.
  - intros x y H. apply conn_pair.
    destruct (Prop_ParUnionFind.C03_issued_are_requested n progs usched x y H) as [p [Hp Hu]]. apply (R p); auto.
Qed.

(** merging vertices that some minimum cut does not separate keeps the minimum cut *)
Lemma merge_keeps G (H : graph) f S lambda : clustering (length G) f (length H) ->
  contraction_of (length G) (wt G) f (length H) (wt H) -> mincut_of G lambda ->
  proper (length G) S -> cutw (length G) (wt G) S = lambda ->
  (forall x y, x < length G -> y < length G -> f x = f y -> S x = S y) -> mincut_of H lambda.
Proof.
  intros Cl Ct Ml P El D. destruct (descend _ _ _ S Cl D) as [T Tq]. split.
  - exists T. split; [apply (proper_push _ _ _ S T Cl Tq P)|].
    rewrite (contraction_cut _ _ _ _ _ T (proj1 Cl) Ct). rewrite <- El. apply cutw_ext. intros x Hx. apply Tq. auto.
  - intros T' PT. rewrite (contraction_cut _ _ _ _ _ T' (proj1 Cl) Ct). apply Ml. apply (proper_pull _ _ _ T' Cl PT).
Qed.

(** what is claimed of a state [s] the tests have reached: whatever the union-find does with the requests
    of [s], vertices it puts together are not separated by minimum cuts below the limit (if [every]), and
    any graph that results from merging vertices that are together has the same minimum cut *)
Definition C68_claim (every : bool) (G : graph) (limit : N) (log : list (nat * nat)) : Prop :=
  forall progs usched, requested log progs -> Forall (Forall (P_ParUnionFind.pop_lt (length G))) progs ->
  let u := M_ParUnionFind.prun (M_ParUnionFind.pinit (length G) progs) usched in
  (every = true -> forall a b, together u a b -> forall S, mincut_below G limit S -> S a = S b) /\
  (forall H f lambda, clustering (length G) f (length H) -> contraction_of (length G) (wt G) f (length H) (wt H) ->
     (forall x y, x < length G -> y < length G -> f x = f y -> x = y \/ together u x y) ->
     mincut_of G lambda -> (lambda < limit)%N -> mincut_of H lambda).

Definition C68_statement : Prop := forall all G limit work sched, undirected G ->
  (all = true \/ forall v, v < length G -> (limit <= deg G v)%N) -> (total G < 2 ^ 64)%N ->
  C68_claim true G limit (q_log (p_run (par12_init all limit G work) sched)) /\
  (noparallel G -> C68_claim all G limit (q_log (p_run (par34_init all limit G work) sched))).

Lemma claim_of every G limit log : undirected G ->
  (every = true -> forall a b, conn log a b -> good G limit a b) ->
  (forall S, mincut_below G limit S -> exists S', mincut_below G limit S' /\ forall a b, conn log a b -> S' a = S' b) ->
  C68_claim every G limit log.
Proof.
  intros U A B progs usched R F u. split.
  - intros E a b T. apply (A E). apply (together_conn (length G) log progs usched a b R F T).
  - intros H f lambda Cl Ct Tg Ml Lt. destruct Ml as [[S [P Es]] Mn].
    destruct (B S) as [S' [[P' [M' L']] Sep]].
    { split; [auto|]. split; [intros S' P'; rewrite Es; auto|lia]. }
    apply (merge_keeps G H f S' lambda Cl Ct); auto.
    + split; [exists S; auto|auto].
    + specialize (M' S P). specialize (Mn S' P'). lia.
    + intros x y Hx Hy Q. destruct (Tg x y Hx Hy Q) as [E|T]; [rewrite E; reflexivity|].
      apply Sep. apply (together_conn (length G) log progs usched x y R F T).
Qed.

(** C68 for graphs whose degrees fit 32 bits: for every distribution of the vertices over any number of
    threads and every interleaving, at every moment of the execution.  Missing: larger degrees, for which
    the statement is false (below). *)
Theorem C68_par_pr_tests_partial : forall all G limit work sched, undirected G ->
  (all = true \/ forall v, v < length G -> (limit <= deg G v)%N) -> (forall v, v < length G -> (deg G v < 2 ^ 32)%N) ->
  C68_claim true G limit (q_log (p_run (par12_init all limit G work) sched)) /\
  (noparallel G -> C68_claim all G limit (q_log (p_run (par34_init all limit G work) sched))).
Proof.
  intros all G limit work sched U L B. change (2 ^ 32)%N with 4294967296%N in B. split.
  - destruct (par12_ok G limit all true U work sched (conj B L)) as (owns & bs & I).
    apply claim_of; auto.
    + intros _. apply (qinv_all G limit true _ owns bs); auto.
    + intros S Bs. apply (qinv_some G limit true U _ owns bs S); auto.
  - intro Np. destruct (par34_ok G limit all all U work sched (conj (conj (conj Np L) eq_refl) B)) as (owns & bs & I).
    apply claim_of; auto.
    + intros E. apply (qinv_all G limit all _ owns bs); auto.
    + intros S Bs. apply (qinv_some G limit all U _ owns bs S); auto.
Qed.
Print Assumptions C68_par_pr_tests_partial.

(** NodeID deg_n and deg_tgt hold 32 bits: vertices 0 and 1 have degree 2^32 + 3, read as 3, the triangle
    0, 1, 2 passes the test, and the two minimum cuts of weight 3 are both destroyed by one thread. *)
Definition c68_bad : graph :=
  let B := 4294967296%N in
  [[(1, 1%N); (2, 2%N); (3, B)]; [(0, 1%N); (2, 2%N); (4, B)]; [(0, 2%N); (1, 2%N); (5, B)]; [(0, B)]; [(1, B)]; [(2, B)]].
Definition c68_merged : graph :=
  let B := 4294967296%N in [[(1, 4%N); (2, B); (3, B)]; [(0, 4%N); (4, B)]; [(0, B)]; [(0, B)]; [(1, B)]].

Theorem C68_wide_degrees_refuted : ~ C68_statement.
Proof.
  intro H. destruct (H false c68_bad 4%N [[0]] (repeat 0 12)) as [_ H34].
  - apply undirectedb_ok. reflexivity.
  - right. intros v Hv. simpl in Hv. do 6 (destruct v as [|v]; [vm_compute; discriminate|]). lia.
  - reflexivity.
  - assert (Np : noparallel c68_bad).
    { intro u. do 6 (destruct u as [|u]; [cbn; repeat constructor; cbn; intuition lia|]). destruct u; constructor. }
    specialize (H34 Np).
    destruct (H34 [[M_ParUnionFind.PUnion 0 1; M_ParUnionFind.PFind 0; M_ParUnionFind.PFind 1]] (repeat 0 40)) as [_ K].
    + intros p a b [<-|[]] [E|[E|[E|[]]]]; try discriminate E. injection E as <- <-. vm_compute. auto.
    + repeat constructor.
    + assert (M3 : mincut_of c68_bad 3) by (apply (mincut_check c68_bad 3 [true; false; false; true; false; false]); reflexivity).
      assert (T : together (M_ParUnionFind.prun (M_ParUnionFind.pinit 6 [[M_ParUnionFind.PUnion 0 1; M_ParUnionFind.PFind 0; M_ParUnionFind.PFind 1]]) (repeat 0 40)) 0 1).
      { exists 1. vm_compute. auto. }
      destruct (K c68_merged (fun v => if v <? 2 then 0 else v - 1) 3%N) as [[S [P Es]] _].
      * split; [intros u Hu; simpl in Hu; do 6 (destruct u as [|u]; [simpl; lia|]); lia|].
        intros p Hp. simpl in Hp. exists (if p =? 0 then 0 else S p). destruct p as [|p]; simpl; split; lia.
      * intros p q Hp Hq N. simpl in Hp, Hq.
        do 5 (destruct p as [|p]; [do 5 (destruct q as [|q]; [first [contradiction|vm_compute; reflexivity]|]); lia|]). lia.
      * intros x y Hx Hy E. simpl in Hx, Hy.
        do 6 (destruct x as [|x]; [do 6 (destruct y as [|y]; [first [left; reflexivity|discriminate E|right; exact T|
            right; destruct T as [r [T1 T2]]; exists r; split; assumption]|]); lia|]). lia.
      * exact M3.
      * reflexivity.
      * pose proof (cuts_geb_ok c68_merged 4 eq_refl S P) as Q. rewrite Es in Q. apply Q. reflexivity.
Qed.
Print Assumptions C68_wide_degrees_refuted.

(** Example: two threads; at step 8 both are about to swap the flag of vertex 1 (thread 0 holds the one of
    vertex 0).  Thread 0 wins and joins 0 and 1; the log depends on the interleaving. *)
Definition c68_graph : graph :=
  gr [[(1,2);(2,2);(3,2)];[(0,2);(2,2);(3,2)];[(0,2);(1,2);(3,2)];[(0,2);(1,2);(2,2);(4,1)];[(3,1);(5,2)];[(4,2);(6,9)];[(5,9)]].
Definition c68_work : list (list nat) := [[0;2;4];[1;3;5;6]].
Example c68_hyps : undirected c68_graph /\ (forall v, v < length c68_graph -> (3 <= deg c68_graph v)%N) /\
  (forall v, v < length c68_graph -> (deg c68_graph v < 2 ^ 32)%N) /\ noparallel c68_graph /\ mincut_of c68_graph 1 /\ (1 < 3)%N.
Proof.
  split; [apply undirectedb_ok; reflexivity|]. split; [|split; [|split; [|split]]].
  - intros v Hv. simpl in Hv. do 7 (destruct v as [|v]; [vm_compute; discriminate|]). lia.
  - intros v Hv. simpl in Hv. do 7 (destruct v as [|v]; [vm_compute; reflexivity|]). lia.
  - intro u. do 7 (destruct u as [|u]; [cbn; repeat constructor; cbn; intuition lia|]). destruct u; constructor.
  - apply (mincut_check c68_graph 1 [true; true; true; true; false; false; false]); reflexivity.
  - reflexivity.
Qed.
Example c68_contest :
  match map (fun p => match p with PCas v _ => Some v | _ => None end)
      (q_thr (p_run (par34_init false 3 c68_graph c68_work) [0;1;0;1;0;1;0;1])) with
  | l => l = [Some 1; Some 1] end /\
  q_log (p_run (par34_init false 3 c68_graph c68_work) (concat (repeat [0;1] 50))) = [(0, 1); (1, 2); (0, 1); (0, 2); (5, 6)] /\
  q_log (p_run (par34_init false 3 c68_graph c68_work) (repeat 0 50 ++ repeat 1 50)) = [(0, 1); (0, 1); (0, 2)] /\
  q_log (p_run (par12_init false 3 c68_graph c68_work) (repeat 0 50 ++ repeat 1 50)) = [(4, 5); (5, 6); (6, 5)].
Proof. repeat split; vm_compute; reflexivity. Qed.
Example c68_requested : requested [(0, 1); (0, 1); (0, 2)] [[M_ParUnionFind.PUnion 0 1; M_ParUnionFind.PFind 0]; [M_ParUnionFind.PUnion 0 2; M_ParUnionFind.PFind 2]].
Proof. intros p a b [<-|[<-|[]]] [E|[E|[]]]; try discriminate E; injection E as <- <-; simpl; auto. Qed.
