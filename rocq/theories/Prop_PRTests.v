(* Prop_PRTests.v - properties C17 and C18: the Padberg-Rinaldi contraction tests. *)
From Verif Require Import SpecRel SpecCut SpecHier SpecPR M_UnionFind P_UnionFind M_PRTests P_Cut P_Contract P_Hier P_PR P_PRTests P_Check Prop_Noi.

(** a minimum cut below the limit that separates no joined pair is the minimum cut of the contracted graph *)
Lemma keeps_mincut ord G limit u ps lambda : (forall p l, Permutation (ord p l) l) -> undirected G -> inv (length G) ps u ->
  mincut_of G lambda ->
  (exists S, mincut_below G limit S /\ forall x y, conn ps x y -> S x = S y) ->
  exists H m, from_union_find ord G u = Some (H, m) /\ mincut_of H lambda.
Proof.
  intros Po U I Ml [S [[P [Mn Lt]] Sep]].
  destruct (from_uf_ok ord G ps u Po U I) as [H [m [E [_ [_ [Cn [Cl [Ct _]]]]]]]].
  exists H, m. split; [auto|].
  assert (El : cutw (length G) (wt G) S = lambda).
  { destruct Ml as [[S' [P' E']] L]. specialize (L S P). specialize (Mn S' P'). lia. }
  assert (D : forall x y, x < length G -> y < length G -> nth x m 0 = nth y m 0 -> S x = S y).
  { intros x y Hx Hy Q. apply Sep, Cn; auto. }
  destruct (descend _ _ _ S Cl D) as [T Tq]. split.
  - exists T. split; [apply (proper_push _ _ _ S T Cl Tq P)|].
    rewrite (contraction_cut _ _ _ _ _ T (proj1 Cl) Ct). rewrite <- El. apply cutw_ext. intros x Hx. apply Tq. auto.
  - intros T' PT. rewrite (contraction_cut _ _ _ _ _ T' (proj1 Cl) Ct). apply Ml. apply (proper_pull _ _ _ T' Cl PT).
Qed.

(** C17, full statement: for weights of any size, no minimum cut of weight below the limit separates two
    vertices joined by prTests12, and so the contracted graph has the same minimum cut. *)
Definition C17_claim (all : bool) (G : graph) (limit : N) : Prop :=
  exists u, pr_tests12 all G limit = Some u /\
    (forall x y, x < length G -> y < length G -> same_set u x y -> forall S, mincut_below G limit S -> S x = S y) /\
    (forall ord lambda, (forall p l, Permutation (ord p l) l) -> mincut_of G lambda -> (lambda < limit)%N ->
       exists H m, from_union_find ord G u = Some (H, m) /\ mincut_of H lambda).
Definition C17_statement : Prop := forall all G limit, undirected G ->
  (all = true \/ forall v, v < length G -> (limit <= deg G v)%N) -> (total G < 2 ^ 64)%N -> C17_claim all G limit.

(** C17 for all graphs whose degrees fit 32 bits.  Missing: larger degrees, for which the statement is
    false (below). *)
Theorem C17_pr_tests12_partial : forall all G limit, undirected G ->
  (all = true \/ forall v, v < length G -> (limit <= deg G v)%N) ->
  (forall v, v < length G -> (deg G v < 2 ^ 32)%N) -> C17_claim all G limit.
Proof.
  intros all G limit U L B. change (2 ^ 32)%N with 4294967296%N in B.
  destruct (pr_tests12_ok G limit all U) as (u & ps & E & I & O). specialize (O (conj B L)).
  assert (K : forall x y, conn ps x y -> forall S, mincut_below G limit S -> S x = S y) by (intros x y; apply good_conn; auto).
  exists u. split; [auto|]. split.
  - intros x y Hx Hy SS. apply K. apply (same_set_conn (length G) ps u); auto.
  - intros ord lambda Po Ml Lt. apply (keeps_mincut ord G limit u ps lambda Po U I Ml).
    destruct Ml as [[S [P Es]] Mn].
    assert (Bs : mincut_below G limit S).
    { split; [auto|]. split; [intros S' P'; rewrite Es; auto|lia]. }
    exists S. split; [auto|]. intros x y C. apply (K x y C S Bs).
Qed.
Print Assumptions C17_pr_tests12_partial.

(** whatever the weights, prTests12 returns a union-find over the vertices, so the contraction is defined *)
Theorem C17_pr_tests12_total : forall all G limit, undirected G ->
  exists u ps, pr_tests12 all G limit = Some u /\ inv (length G) ps u.
Proof. intros all G limit U. destruct (pr_tests12_ok G limit all U) as (u & ps & E & I & _). exists u, ps. auto. Qed.
Print Assumptions C17_pr_tests12_total.

(** Degrees are truncated to 32 bits: vertex 1 has degree 2^32 + 1, read as 1, and the minimum cut
    edge 1-2 of weight 1 is contracted. *)
Definition c17_bad : graph := [[(1, 4294967296%N)]; [(0, 4294967296%N); (2, 1%N)]; [(1, 1%N); (3, 4294967296%N)]; [(2, 4294967296%N)]].
Example c17_bad_undirected : undirected c17_bad.
Proof. apply undirectedb_ok. reflexivity. Qed.

Theorem C17_pr_tests12_refuted : ~ C17_statement.
Proof.
  intro H. destruct (H false c17_bad 4294967296%N) as [u [E [C _]]].
  - exact c17_bad_undirected.
  - right. intros v Hv. simpl in Hv. destruct v as [|[|[|[|]]]]; [vm_compute; discriminate..|lia].
  - reflexivity.
  - assert (S : match pr_tests12 false c17_bad 4294967296%N with
                | Some u => match uf_find u 1, uf_find u 2 with Some (_, r), Some (_, r') => Nat.eqb r r' | _, _ => false end
                | None => false end = true) by (vm_compute; reflexivity).
    rewrite E in S. destruct (uf_find u 1) as [[u1 r1]|] eqn:F1; [|discriminate]. destruct (uf_find u 2) as [[u2 r2]|] eqn:F2; [|discriminate].
    apply Nat.eqb_eq in S. subst r2.
    assert (B : mincut_below c17_bad 4294967296%N (fun v => v <? 2)).
    { split; [split; [exists 0|exists 2]; simpl; split; auto; lia|]. split; [|vm_compute; reflexivity].
      intros S' P'. pose proof (cuts_geb_ok c17_bad 1 eq_refl S' P') as Q.
      change (cutw (length c17_bad) (wt c17_bad) (fun v => v <? 2)) with 1%N. exact Q. }
    specialize (C 1 2 ltac:(simpl; lia) ltac:(simpl; lia) ltac:(exists u1, u2, r1; auto) _ B). discriminate.
Qed.
Print Assumptions C17_pr_tests12_refuted.

(** C18: on graphs without parallel edges, prTests34 keeps the minimum cut value if it is below the
    limit (not above any degree, or anything with find_all_cuts) ... *)
Theorem C18_pr_tests34_keeps_mincut : forall all G limit, undirected G -> noparallel G ->
  (all = true \/ forall v, v < length G -> (limit <= deg G v)%N) ->
  exists u, pr_tests34 all G limit = Some u /\
    forall ord lambda, (forall p l, Permutation (ord p l) l) -> mincut_of G lambda -> (lambda < limit)%N ->
      exists H m, from_union_find ord G u = Some (H, m) /\ mincut_of H lambda.
Proof.
  intros all G limit U Np L. destruct (pr_tests34_ok G limit all U) as (u & ps & bs & con & E & I & O). specialize (O (conj Np L)).
  exists u. split; [auto|]. intros ord lambda Po Ml Lt. apply (keeps_mincut ord G limit u ps lambda Po U I Ml).
  destruct Ml as [[S [P Es]] Mn]. apply (okp_some G limit all con ps bs U O S).
  split; [auto|]. split; [intros S' P'; rewrite Es; auto|lia].
Qed.
Print Assumptions C18_pr_tests34_keeps_mincut.

(** ... and with find_all_cuts it joins no two vertices separated by any minimum cut below the limit. *)
Theorem C18_pr_tests34_keeps_all_mincuts : forall G limit, undirected G -> noparallel G ->
  exists u, pr_tests34 true G limit = Some u /\
    forall x y, x < length G -> y < length G -> same_set u x y -> forall S, mincut_below G limit S -> S x = S y.
Proof.
  intros G limit U Np. destruct (pr_tests34_ok G limit true U) as (u & ps & bs & con & E & I & O).
  specialize (O (conj Np (or_introl eq_refl))).
  exists u. split; [auto|]. intros x y Hx Hy SS. apply (okp_all G limit true con ps bs O eq_refl).
  apply (same_set_conn (length G) ps u); auto.
Qed.
Print Assumptions C18_pr_tests34_keeps_all_mincuts.

(** With parallel edges test 3 counts the smaller edge of a triangle twice and destroys the minimum cut. *)
Definition c18_bad : graph := gr [[(1, 1); (2, 1); (3, 5)]; [(0, 1); (2, 1); (2, 1)]; [(0, 1); (1, 1); (1, 1)]; [(0, 5)]].
Theorem C18_parallel_edges_refuted : ~ forall G limit, undirected G -> (forall v, v < length G -> (limit <= deg G v)%N) ->
  exists u, pr_tests34 false G limit = Some u /\
    forall lambda, mincut_of G lambda -> (lambda < limit)%N ->
      exists H m, from_union_find (fun _ l => l) G u = Some (H, m) /\ mincut_of H lambda.
Proof.
  intro H. destruct (H c18_bad 3%N) as [u [E C]].
  - apply undirectedb_ok. reflexivity.
  - intros v Hv. simpl in Hv. destruct v as [|[|[|[|]]]]; [vm_compute; discriminate..|lia].
  - destruct (C 2%N) as (G' & m & E' & [[S [P Es]] _]).
    + apply (mincut_check c18_bad 2 [true; false; false; true]); reflexivity.
    + reflexivity.
    + assert (R : match pr_tests34 false c18_bad 3%N with
                  | Some u => match from_union_find (fun _ l => l) c18_bad u with
                              | Some (K, _) => K = gr [[(1, 3)]; [(0, 3)]] \/ length K = 1 | None => False end
                  | None => False end) by (vm_compute; auto).
      rewrite E, E' in R. destruct R as [->|R].
      * pose proof (cuts_geb_ok (gr [[(1, 3)]; [(0, 3)]]) 3 eq_refl S P). lia.
      * destruct P as [[a [Ha Ea]] [b [Hb Eb]]]. rewrite R in Ha, Hb. assert (a = b) by lia. congruence.
Qed.
Print Assumptions C18_parallel_edges_refuted.

(** Examples: in the graph of C13 (minimum cut 3, degrees at least 6) test 1/2 joins 0,1 or 0,2 ...;
    test 3 joins 0 and 1 in a triangle. *)
Example c17_joins : exists u, pr_tests12 false c13_graph 6 = Some u /\ cnt u < 6 /\ same_set u 3 4.
Proof. eexists. split; [vm_compute; reflexivity|]. split; [vm_compute; lia|]. eexists _, _, _; split; vm_compute; reflexivity. Qed.
Example c17_hyps : (forall v, v < length c13_graph -> (6 <= deg c13_graph v)%N) /\ (forall v, v < length c13_graph -> (deg c13_graph v < 2 ^ 32)%N).
Proof.
  split; [exact c14_degrees|]. intros v Hv. simpl in Hv. do 6 (destruct v as [|v]; [vm_compute; reflexivity|]). lia.
Qed.
Example c18_joins : exists u, pr_tests34 false c13_graph 6 = Some u /\ cnt u < 6 /\ same_set u 0 1.
Proof. eexists. split; [vm_compute; reflexivity|]. split; [vm_compute; lia|]. eexists _, _, _; split; vm_compute; reflexivity. Qed.
Example c18_all_joins : exists u, pr_tests34 true c13_graph 6 = Some u /\ cnt u < 6.
Proof. eexists. split; [vm_compute; reflexivity|]. vm_compute. lia. Qed.
Example c18_noparallel : noparallel c13_graph.
Proof. intro u. do 6 (destruct u as [|u]; [cbn; repeat constructor; cbn; intuition lia|]). destruct u; constructor. Qed.
