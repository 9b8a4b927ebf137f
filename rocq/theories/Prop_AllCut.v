(* Prop_AllCut.v - property C42: the reductions used when all minimum cuts are wanted. *)
From Verif Require Import SpecRel SpecCut SpecHier SpecPR M_UnionFind P_UnionFind M_AllCut P_Cut P_Contract P_Hier P_PR P_PRTests P_AllCut P_AllCut2 P_Check M_Noi P_Noi Prop_Noi Prop_PRTests.

(** S is one side of a minimum cut of G *)
Definition mincut_side (G : graph) (S : nat -> bool) : Prop :=
  proper (length G) S /\ forall S', proper (length G) S' -> (cutw (length G) (wt G) S <= cutw (length G) (wt G) S')%N.
(** contracting the sets of u keeps every minimum cut of G, with its weight, as a minimum cut *)
Definition keeps_all (ord : nat -> list nat -> list nat) (G : graph) (u : uf) : Prop :=
  exists H m, from_union_find ord G u = Some (H, m) /\
    forall S, mincut_side G S -> exists S', mincut_side H S' /\ (forall v, v < length G -> S' (nth v m 0) = S v) /\
      cutw (length H) (wt H) S' = cutw (length G) (wt G) S.

Lemma keeps_all_ok ord G ps u : (forall p l, Permutation (ord p l) l) -> undirected G -> inv (length G) ps u ->
  (forall x y, x < length G -> y < length G -> conn ps x y -> forall S, mincut_side G S -> S x = S y) -> keeps_all ord G u.
Proof.
  intros Po U I K. destruct (from_uf_ok ord G ps u Po U I) as (H & m & E & _ & _ & Cn & Cl & Ct & _). exists H, m. split; [exact E|].
  intros S MS. destruct (descend (length G) _ (length H) S Cl) as [S' HS].
  { intros a b Ha Hb Eq. apply (K a b Ha Hb); auto. apply Cn; auto. }
  assert (R : forall v, v < length G -> nth v m 0 < length H) by (destruct Cl as [R _]; exact R).
  assert (W : forall Q, cutw (length H) (wt H) Q = cutw (length G) (wt G) (fun v => Q (nth v m 0))) by (intros Q; apply (contraction_cut _ _ (fun v => nth v m 0)); auto).
  assert (EqS : cutw (length H) (wt H) S' = cutw (length G) (wt G) S) by (rewrite W; apply cutw_ext; auto).
  exists S'. split; [|split; auto]. destruct MS as [P Mn]. split; [apply (proper_push (length G) (fun v => nth v m 0) _ S); auto|].
  intros Q PQ. rewrite EqS, W. apply Mn. destruct Cl as [_ Su]. destruct PQ as [[a [Ha Ea]] [b [Hb Eb]]].
  destruct (Su a Ha) as [x [Hx Ex]], (Su b Hb) as [y [Hy Ey]]. split; [exists x|exists y]; split; auto; congruence.
Qed.

Lemma side_below G lambda S : mincut_of G lambda -> mincut_side G S -> mincut_below G (lambda + 1) S.
Proof. intros [[T [PT ET]] Mn] [P M]. split; [auto|]. split; [auto|]. specialize (M T PT). lia. Qed.

(** C42, full statement: each of the three reductions keeps all minimum cuts. *)
Definition C42_statement : Prop := forall ord G lambda, (forall p l, Permutation (ord p l) l) -> undirected G -> 0 < length G -> mincut_of G lambda ->
  (exists u, ac_tests12 G lambda = Some u /\ keeps_all ord G u) /\
  (exists u, ac_tests34 G lambda = Some u /\ keeps_all ord G u) /\
  (forall cf rnd, exists u, capforest cf rnd G (lambda + 1) = Some u /\ keeps_all ord G u).

(** allCutsPrTests12, when every edge weighs at least half the minimum cut, or every edge weighs at most half of it or more
    than all of it.
    Missing: other weights, for which the statement is false (below). *)
Theorem C42_prtests12_partial : forall ord G lambda, (forall p l, Permutation (ord p l) l) -> undirected G -> mincut_of G lambda ->
  ((forall x v w, In (v, w) (nth x G []) -> (lambda <= 2 * w)%N) \/ (forall x v w, In (v, w) (nth x G []) -> (2 * w <= lambda \/ lambda < w)%N)) ->
  exists u, ac_tests12 G lambda = Some u /\ keeps_all ord G u.
Proof.
  intros ord G lambda Po U Ml Gd. destruct (ac_tests12_ok G lambda U) as (u & ps & E & I & Sf). exists u. split; [exact E|].
  apply (keeps_all_ok ord G ps u Po U I). intros x y Hx Hy C S MS.
  refine (good_conn G (lambda + 1) ps x y _ C S (side_below _ _ _ Ml MS)). intros a b Hab. apply Sf; auto.
Qed.
Print Assumptions C42_prtests12_partial.

(** ... in particular for all graphs whose edges have one common weight. *)
Theorem C42_prtests12_equal_weights_partial : forall ord G lambda w0, (forall p l, Permutation (ord p l) l) -> undirected G -> mincut_of G lambda ->
  (forall x v w, In (v, w) (nth x G []) -> w = w0) ->
  exists u, ac_tests12 G lambda = Some u /\ keeps_all ord G u.
Proof.
  intros ord G lambda w0 Po U Ml Eq. apply C42_prtests12_partial; auto.
  destruct (N.le_ge_cases lambda (2 * w0)) as [L|L]; [left|right]; intros x v w Hi; rewrite (Eq x v w Hi); auto.
Qed.
Print Assumptions C42_prtests12_equal_weights_partial.

(** allCutsPrTests34.  Missing: parallel edges (see C18). *)
Theorem C42_prtests34_partial : forall ord G lambda, (forall p l, Permutation (ord p l) l) -> undirected G -> noparallel G -> mincut_of G lambda ->
  exists u, ac_tests34 G lambda = Some u /\ keeps_all ord G u.
Proof.
  intros ord G lambda Po U Np Ml. rewrite ac34_is_pr34. destruct (pr_tests34_ok G (lambda + 1) true U) as (u & ps & bs & con & E & I & O).
  specialize (O (conj Np (or_introl eq_refl))). exists u. split; [exact E|]. apply (keeps_all_ok ord G ps u Po U I).
  intros x y Hx Hy C S MS. apply (okp_all G (lambda + 1) true con ps bs O eq_refl x y C). apply side_below; auto.
Qed.
Print Assumptions C42_prtests34_partial.

(** modified_capforest with bound lambda + 1.  Missing: queue keys beyond 32 bits (see C12). *)
Theorem C42_capforest_partial : forall ord cf rnd G lambda, (forall p l, Permutation (ord p l) l) -> undirected G -> 0 < length G -> mincut_of G lambda ->
  (key_limit cf G (lambda + 1) < 2 ^ 32)%N ->
  exists u, capforest cf rnd G (lambda + 1) = Some u /\ keeps_all ord G u.
Proof.
  intros ord cf rnd G lambda Po U Hn Ml K. change (2 ^ 32)%N with 4294967296%N in K. destruct (capforest_good cf rnd G (lambda + 1) U Hn K) as (u & ps & E & I & P & _).
  exists u. split; [exact E|]. apply (keeps_all_ok ord G ps u Po U I). intros x y Hx Hy C S MS.
  destruct (Bool.bool_dec (S x) (S y)) as [|D]; auto. exfalso. pose proof (conn_conn_ge _ _ _ ps x y P C S D) as L.
  destruct (side_below _ _ _ Ml MS) as (_ & _ & Lt). lia.
Qed.
Print Assumptions C42_capforest_partial.

(** two triangles 0 1 2 and 3 4 5 joined by the edge 2 - 3, which is the only minimum cut *)
Definition c42_graph : graph := gr [[(1, 4); (2, 4)]; [(0, 4); (2, 1)]; [(0, 4); (1, 1); (3, 4)]; [(4, 4); (5, 4); (2, 4)]; [(3, 4); (5, 1)]; [(3, 4); (4, 1)]].
Lemma c42_mincut : mincut_of c42_graph 4.
Proof. apply (mincut_check _ _ [true; true; true; false; false; false]); vm_compute; reflexivity. Qed.
Definition c42_side (v : nat) : bool := v <? 3.
Lemma c42_side_min : mincut_side c42_graph c42_side.
Proof.
  destruct c42_mincut as [_ M]. split; [split; [exists 0|exists 3]; split; cbn; auto; lia|].
  intros S' P. etransitivity; [|apply M, P]. apply N.eq_le_incl. vm_compute. reflexivity.
Qed.
(** allCutsPrTests12 subtracts only the joining edge from the degrees, so the estimate 6 of the triangle 0 1 2 exceeds the
    minimum cut 4 although the triangle is one side of it: the two triangles are joined and the minimum cut is lost. *)
Theorem C42_prtests12_refuted : ~ forall ord G lambda, (forall p l, Permutation (ord p l) l) -> undirected G -> noparallel G -> mincut_of G lambda ->
  exists u, ac_tests12 G lambda = Some u /\ keeps_all ord G u.
Proof.
  intro X. destruct (X (fun _ l => l) c42_graph 4%N) as (u & E & H & m & F & K).
  - intros; apply Permutation_refl.
  - apply undirectedb_ok. reflexivity.
  - intros x. do 6 (destruct x as [|x]; [repeat constructor; cbn; intuition discriminate|]). destruct x; constructor.
  - apply c42_mincut.
  - vm_compute in E. injection E as <-. vm_compute in F. injection F as <- <-. destruct (K c42_side c42_side_min) as (S' & _ & Eq & _).
    pose proof (Eq 0 ltac:(cbn; lia)) as E0. pose proof (Eq 3 ltac:(cbn; lia)) as E3. vm_compute in E0, E3. congruence.
Qed.
Print Assumptions C42_prtests12_refuted.

(** with parallel edges allCutsPrTests34 loses the minimum cut {0, 3} of the graph of C18 *)
Theorem C42_prtests34_refuted : ~ forall ord G lambda, (forall p l, Permutation (ord p l) l) -> undirected G -> mincut_of G lambda ->
  exists u, ac_tests34 G lambda = Some u /\ keeps_all ord G u.
Proof.
  intro X. assert (Ml : mincut_of c18_bad 2) by (apply (mincut_check _ _ [true; false; false; true]); vm_compute; reflexivity).
  destruct (X (fun _ l => l) c18_bad 2%N) as (u & E & H & m & F & K); auto.
  - apply undirectedb_ok. reflexivity.
  - assert (Sd : mincut_side c18_bad (fun v => (v =? 0) || (v =? 3))).
    { destruct Ml as [_ M]. split; [split; [exists 0|exists 1]; split; cbn; auto; lia|].
      intros S' P. etransitivity; [|apply M, P]. apply N.eq_le_incl. vm_compute. reflexivity. }
    vm_compute in E. injection E as <-. vm_compute in F. injection F as <- <-. destruct (K _ Sd) as (S' & _ & Eq & _).
    pose proof (Eq 0 ltac:(cbn; lia)) as E0. pose proof (Eq 1 ltac:(cbn; lia)) as E1. vm_compute in E0, E1. congruence.
Qed.
Print Assumptions C42_prtests34_refuted.

(** Examples: two triangles of weight 3 joined by two edges of weight 1; the minimum cut is 2.  Each reduction joins vertices. *)
Definition c42_ok : graph := gr [[(1, 3); (2, 3)]; [(0, 3); (2, 3); (4, 1)]; [(0, 3); (1, 3); (3, 1)]; [(4, 3); (5, 3); (2, 1)]; [(3, 3); (5, 3); (1, 1)]; [(3, 3); (4, 3)]].
Example c42_ok_mincut : undirected c42_ok /\ noparallel c42_ok /\ mincut_of c42_ok 2.
Proof.
  split; [apply undirectedb_ok; reflexivity|]. split; [|apply (mincut_check _ _ [true; true; true; false; false; false]); vm_compute; reflexivity].
  intros x. do 6 (destruct x as [|x]; [repeat constructor; cbn; intuition discriminate|]). destruct x; constructor.
Qed.
Example c42_ok_weights : forall x v w, In (v, w) (nth x c42_ok []) -> (2 * w <= 2 \/ 2 < w)%N.
Proof.
  intros x v w Hi. do 6 (destruct x as [|x]; [cbn in Hi; intuition (match goal with H : (_, _) = (_, _) |- _ => injection H as <- <- end; lia)|]).
  destruct x; contradiction.
Qed.
Example c42_ok_joins : exists u, ac_tests12 c42_ok 2 = Some u /\ cnt u = 2 /\ same_set u 0 2 /\ same_set u 3 5.
Proof. eexists. split; [vm_compute; reflexivity|]. repeat split; try (eexists _, _, _; split; vm_compute; reflexivity). Qed.
Example c42_ok_joins34 : exists u, ac_tests34 c42_ok 2 = Some u /\ cnt u < 6 /\ same_set u 0 1.
Proof. eexists. split; [vm_compute; reflexivity|]. split; [vm_compute; lia|]. eexists _, _, _; split; vm_compute; reflexivity. Qed.
(** a cycle of six vertices with equal weights: 15 minimum cuts, nothing may be joined *)
Example c42_cycle : exists u, ac_tests12 (gr [[(1, 1); (5, 1)]; [(0, 1); (2, 1)]; [(1, 1); (3, 1)]; [(2, 1); (4, 1)]; [(3, 1); (5, 1)]; [(4, 1); (0, 1)]]) 2 = Some u /\ cnt u = 6.
Proof. eexists. split; vm_compute; reflexivity. Qed.
