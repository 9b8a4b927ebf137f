(* Prop_Sparsify.v - C85 (random_matching), C86 (remove_heavy_vertices and mincut_heavy). *)
From Verif Require Import M_Sparsify P_Cut M_Contract P_Contract P_Sparsify P_Sparsify2.

(** [mate] pairs up vertices along edges; [f] numbers the pairs and the single vertices 0 .. k-1 *)
Definition contracts_matching (G : graph) (f : nat -> nat) (k : nat) : Prop :=
  exists mate : nat -> nat,
    (forall v, v < length G -> mate v < length G /\ mate (mate v) = v /\
       (mate v <> v -> exists w, In (mate v, w) (nth v G []) \/ In (v, w) (nth (mate v) G []))) /\
    (forall u v, u < length G -> v < length G -> (f u = f v <-> u = v \/ mate u = v)) /\
    clustering (length G) f k.
(** [H] is [G] contracted along [f], at most one edge per pair of vertices, all cut weights kept *)
Definition coarse (G : graph) (f : nat -> nat) (H : graph) : Prop :=
  undirected H /\ contraction_of (length G) (wt G) f (length H) (wt H) /\ (forall v, NoDup (map fst (nth v H []))) /\
  forall S, cutw (length H) (wt H) S = cutw (length G) (wt G) (fun v => S (f v)).

Lemma mi_matching G s : undirected G -> mi G (length G) s -> contracts_matching G (fun v => nth v (m_cm s) 0) (length (m_log s)).
Proof.
  intros U [E1 E2 As Ow Inc]. exists (fun v => nth v (m_em s) 0). cbv beta.
  assert (Own : forall v, v < length G -> exists l o, nth_error (m_log s) (nth v (m_cm s) 0) = Some (l, o) /\ (v = l \/ o = Some v)).
  { intros v Hv. destruct (As v Hv (or_introl Hv)) as [_ [o [O|[a [-> O]]]]]; [exists v, o|exists a, (Some v)]; auto. }
  split; [|split].
  - intros v Hv. destruct (Own v Hv) as (l & o & O & Q). destruct (Ow _ _ _ O) as (_ & A & B & D). destruct o as [p|].
    + destruct D as (D1 & D2 & D3 & D4 & D5 & D6). assert (I : exists w, In (p, w) (nth l G [])).
      { destruct (filter (fun e => fst e =? p) (nth l G [])) as [|[a w] r] eqn:F; [cbn [length] in D6; lia|]. exists w.
        assert (I : In (a, w) (filter (fun e => fst e =? p) (nth l G []))) by (rewrite F; left; auto). apply filter_In in I. destruct I as [I Ea]. apply Nat.eqb_eq in Ea. cbn [fst] in Ea. subst a. exact I. }
      destruct I as [w I]. destruct Q as [->|Q]; [rewrite D3|injection Q as ->; rewrite D4]; (split; [auto|split; [auto|intros _; exists w; auto]]).
    + destruct Q as [->|Q]; [|discriminate Q]. rewrite D. split; [auto|]. split; [auto|]. congruence.
  - intros u v Hu Hv. destruct (Own u Hu) as (l & o & O & Q). destruct (Ow _ _ _ O) as (_ & A & B & D). split.
    + intro E. destruct (Own v Hv) as (l' & o' & O' & Q'). rewrite <- E, O in O'. injection O' as <- <-.
      destruct o as [p|].
      * destruct D as (D1 & D2 & D3 & D4 & D5 & D6). destruct Q as [->|Q], Q' as [->|Q']; try injection Q as ->; try injection Q' as ->; auto.
      * destruct Q as [->|Q], Q' as [->|Q']; try discriminate Q; try discriminate Q'; auto.
    + intros [->|E]; [auto|]. destruct o as [p|].
      * destruct D as (D1 & D2 & D3 & D4 & D5 & D6). destruct Q as [->|Q]; [|injection Q as ->]; congruence.
      * destruct Q as [->|Q]; [|discriminate Q]. congruence.
  - split.
    + intros u Hu. apply As; auto.
    + intros c Hc. destruct (nth_error (m_log s) c) as [[l o]|] eqn:X; [|apply nth_error_None in X; lia]. destruct (Ow _ _ _ X) as (_ & A & B & _). exists l. auto.
Qed.

(** C85: whatever is drawn, the matching ends; if no partner lies before the vertex that picks it (only a vertex that gave up after 50 draws can), the
    result is G contracted along a matching.  Without the last condition the claim fails (below), hence "partial". *)
Theorem C85_random_matching_partial G draw : undirected G -> (forall v, v < length G -> nth v G [] <> []) ->
  exists s, rm_match G draw = Some s /\
    ((forall a b, In (a, Some b) (m_log s) -> a < b) ->
     exists H, random_matching G draw = Some H /\ contracts_matching G (fun v => nth v (m_cm s) 0) (length H) /\ coarse G (fun v => nth v (m_cm s) 0) H /\
       length G <= 2 * length H /\ forall c, mincut_of G c -> forall S, proper (length H) S -> (c <= cutw (length H) (wt H) S)%N).
Proof.
  intros U NE. destruct (random_matching_ok G U NE draw) as (s & E & Q). exists s. split; [auto|]. intro F. destruct (Q F) as (H & A & L & M & C & UH & ND). exists H.
  assert (CM := mi_matching G s U M). rewrite <- L in CM. split; [auto|]. split; [auto|].
  assert (Cl : clustering (length G) (fun v => nth v (m_cm s) 0) (length H)) by (destruct CM as [m [_ [_ Cl]]]; exact Cl).
  split; [|split].
  - repeat (split; [auto|]). intro S. apply contraction_cut; [apply Cl|exact C].
  - destruct M as [E1 E2 As Ow Inc].
    assert (I : incl (seq 0 (length G)) (flat_map (fun x => fst x :: match snd x with Some p => [p] | None => [] end) (m_log s))).
    { intros v Iv. apply in_seq in Iv. assert (Hv : v < length G) by lia. destruct (As v Hv (or_introl Hv)) as [_ [o [O|[a [-> O]]]]]; apply nth_error_In in O; apply in_flat_map; eexists; (split; [exact O|]); cbn [fst snd]; [left|right; left]; auto. }
    apply NoDup_incl_length in I; [|apply seq_NoDup]. rewrite seq_length in I. rewrite L.
    assert (B : forall l : list (nat * option nat), length (flat_map (fun x => fst x :: match snd x with Some p => [p] | None => [] end) l) <= 2 * length l).
    { induction l as [|[a o] l IH]; [auto|]. cbn [flat_map fst snd]. rewrite app_length. destruct o; cbn [length]; lia. }
    specialize (B (m_log s)). lia.
  - intros c [_ Mc] S P. rewrite (contraction_cut (length G) (wt G) (fun v => nth v (m_cm s) 0)) by (auto; apply Cl). apply Mc.
    destruct Cl as [_ On]. destruct P as [[u [Hu Pu]] [v [Hv Pv]]]. split.
    + destruct (On u Hu) as [x [Hx Ex]]. exists x. rewrite Ex. auto.
    + destruct (On v Hv) as [x [Hx Ex]]. exists x. rewrite Ex. auto.
Qed.
Print Assumptions C85_random_matching_partial.

(** a path of five vertices and a chord; 0 picks 1, 2 picks 3, 4 finds no partner *)
Definition mg : graph := gr [[(1, 2); (2, 1)]; [(0, 2); (2, 3)]; [(0, 1); (1, 3); (3, 1)]; [(2, 1); (4, 5)]; [(3, 5)]].
Definition md (k : nat) : nat := if k =? 1 then 2 else 0.
Example C85_ex : undirected mg /\ (forall v, v < length mg -> nth v mg [] <> []) /\
  (exists s, rm_match mg md = Some s /\ m_log s = [(0, Some 1); (2, Some 3); (4, None)]) /\
  random_matching mg md = Some [[(1, 4%N)]; [(0, 4%N); (2, 5%N)]; [(1, 5%N)]].
Proof.
  split; [apply undirectedb_ok; vm_compute; reflexivity|]. split.
  - intros v Hv. do 5 (destruct v as [|v]; [cbn; intro H; discriminate H|]). cbn in Hv. lia.
  - split; [eexists; split; vm_compute; reflexivity|vm_compute; reflexivity].
Qed.

(** 2 draws 0 fifty times and gives up, then 3 draws 2: the pair is built twice, as coarse vertices 1 and 2, with
    edges in one direction only *)
Definition lg : graph := gr [[(1, 2); (2, 2)]; [(0, 2); (2, 2)]; [(0, 2); (1, 2); (3, 2)]; [(2, 2)]].
Theorem C85_late_partner_refuted : ~ (forall G draw, undirected G -> (forall v, v < length G -> nth v G [] <> []) ->
  exists H, random_matching G draw = Some H /\ undirected H).
Proof.
  intro F. destruct (F lg (fun _ => 0)) as (H & E & U).
  - apply undirectedb_ok. vm_compute. reflexivity.
  - intros v Hv. do 4 (destruct v as [|v]; [cbn; intro H; discriminate H|]). cbn in Hv. lia.
  - vm_compute in E. injection E as <-. destruct U as [_ U2]. specialize (U2 0 1 ltac:(cbn; lia) ltac:(cbn; lia)). vm_compute in U2. discriminate U2.
Qed.
Print Assumptions C85_late_partner_refuted.
(** a vertex without edges: the remainder by zero *)
Theorem C85_isolated_refuted : ~ (forall G draw, undirected G -> exists H, random_matching G draw = Some H).
Proof. intro F. destruct (F [[]] (fun _ => 0)) as (H & E); [apply undirectedb_ok; reflexivity|]. vm_compute in E. discriminate E. Qed.
Print Assumptions C85_isolated_refuted.

(** the vertices of degree below [bound], in their order *)
Definition light_vertices (bound : N) (G : graph) : list nat := filter (fun v => (sumN snd (nth v G []) <? bound)%N) (seq 0 (length G)).
Lemma light_kept bound G : light_vertices bound G = kept bound G.
Proof. unfold light_vertices, kept, keptl, rh_heavy. apply filter_ext. intro v. rewrite negb_involutive. reflexivity. Qed.
(** number of edges from u to v *)
Definition multiplicity (G : graph) (u v : nat) : N := N.of_nat (length (filter (fun e => fst e =? v) (nth u G []))).

(** C86: the graph on the light vertices; prefixsum names them; every edge weighs 1 *)
Theorem C86_heavy_vertices bound G : undirected G ->
  let G2 := fst (remove_heavy bound G) in let pre := snd (remove_heavy bound G) in let L := light_vertices bound G in
  length G2 = length L /\ length pre = length G /\
  (forall i, i < length L -> nth (nth i L 0) pre None = Some i) /\ (forall v, v < length G -> ~ In v L -> nth v pre None = None) /\
  (forall u j w, In (j, w) (nth u G2 []) -> j < length G2 /\ j <> u /\ w = 1%N) /\
  (forall i j, i < length L -> j < length L -> wt G2 i j = multiplicity G (nth i L 0) (nth j L 0)) /\
  ((forall u v w, In (v, w) (nth u G []) -> w = 1%N) -> undirected G2 /\ forall i j, i < length L -> j < length L -> wt G2 i j = wt G (nth i L 0) (nth j L 0)).
Proof.
  intro U. assert (R := remove_heavy_ok bound G U). cbv zeta. rewrite light_kept. destruct (remove_heavy bound G) as [G2 pre]. cbn [fst snd]. destruct R as (A & B & C & D & E & F).
  rewrite <- A. split; [auto|]. split; [auto|]. split; [auto|]. split; [|split; [auto|split; [exact F|]]].
  - intros v Hv N. apply D; auto. destruct (rh_heavy bound G v) eqn:X; [auto|]. exfalso. apply N. apply filter_In. split; [apply in_seq; lia|]. rewrite X. auto.
  - intro U1. assert (W : forall u v, wt G u v = nedges G u v).
    { intros u v. unfold wt, nedges. specialize (U1 u). induction (nth u G []) as [|[t w] es IH]; [reflexivity|]. cbn [filter fst]. rewrite (U1 t w (or_introl eq_refl)).
      destruct (t =? v); cbn [sumN snd length]; rewrite IH by (intros; eapply U1; right; eauto); lia. }
    split; [|intros i j Hi Hj; rewrite W; apply F; auto]. split; [intros u v w I; destruct (E u v w I) as (X & Y & _); auto|].
    intros i j Hi Hj. rewrite !F, <- !W by auto. destruct U as [_ U2]. apply U2; [apply (kept_rank (rh_heavy bound G) (length G) i)|apply (kept_rank (rh_heavy bound G) (length G) j)]; unfold kept in A; lia.
Qed.
Print Assumptions C86_heavy_vertices.

(** number of edges from v to light vertices with T *)
Definition light_edges (bound : N) (G : graph) (v : nat) (T : nat -> bool) : nat :=
  length (filter (fun e => (sumN snd (nth (fst e) G []) <? bound)%N && T (fst e)) (nth v G [])).
Lemma heavy_majority bound side G v : undirected G -> v < length G -> ~ In v (light_vertices bound G) ->
  let S := heavy_side (snd (remove_heavy bound G)) side G in
  S v = true <-> light_edges bound G v (fun u => negb (S u)) <= light_edges bound G v S.
Proof.
  intros [U _] Hv Nl. cbv zeta. set (pre := snd (remove_heavy bound G)).
  assert (P : forall u, u < length G -> nth u pre None = if (sumN snd (nth u G []) <? bound)%N then Some (rank (rh_heavy bound G) u) else None).
  { intros u Hu. unfold pre, remove_heavy. cbv zeta. cbn [snd]. rewrite pre_nth. unfold rh_heavy at 1.
    rewrite negb_involutive. destruct (Nat.ltb_spec u (length G)); [reflexivity|lia]. }
  assert (Q : forall (T T' : nat -> bool), (forall u t, u < length G -> nth u pre None = Some t -> T' u = T t) ->
    length (filter (fun e => match nth (fst e) pre None with Some t => T t | None => false end) (nth v G [])) = light_edges bound G v T').
  { intros T T' HT. unfold light_edges. f_equal. apply filter_ext_in. intros [u w] I. cbn [fst]. destruct (U v u w I) as [Hu _].
    specialize (HT u). rewrite (P u Hu) in *. destruct (_ <? bound)%N; [|auto]. rewrite (HT _ Hu eq_refl). auto. }
  unfold heavy_side at 1. rewrite (P v Hv). destruct (N.ltb_spec (sumN snd (nth v G [])) bound) as [L|L].
  { exfalso. apply Nl. apply filter_In. split; [apply in_seq; lia|]. apply N.ltb_lt. auto. }
  rewrite (Q side (heavy_side pre side G)), (Q (fun t => negb (side t)) (fun u => negb (heavy_side pre side G u))).
  - cbv zeta. destruct (Nat.ltb_spec (light_edges bound G v (fun u => negb (heavy_side pre side G u))) (light_edges bound G v (heavy_side pre side G))); [split; [lia|auto]|].
    destruct (Nat.ltb_spec (light_edges bound G v (heavy_side pre side G)) (light_edges bound G v (fun u => negb (heavy_side pre side G u)))); split; auto; try discriminate; lia.
  - intros u t Hu E. unfold heavy_side. rewrite E. auto.
  - intros u t Hu E. unfold heavy_side. rewrite E. auto.
Qed.

(** C86: the printed number is the weight in G of a cut that continues the cut of the smaller graph, every heavy vertex on the
    side where most of its light neighbours are (a tie counts as inside); not below the minimum if that cut is proper *)
Theorem C86_printed_cut bound alg G : undirected G ->
  let G2 := fst (remove_heavy bound G) in let L := light_vertices bound G in
  exists S, mincut_heavy bound alg G = cutw (length G) (wt G) S /\ (forall i, i < length L -> S (nth i L 0) = alg G2 i) /\
    (forall v, v < length G -> ~ In v L -> (S v = true <-> light_edges bound G v (fun u => negb (S u)) <= light_edges bound G v S)) /\
    (proper (length G2) (alg G2) -> proper (length G) S /\ forall c, mincut_of G c -> (c <= mincut_heavy bound alg G)%N).
Proof.
  intro U. cbv zeta. destruct (mincut_heavy_ok bound alg G U) as [A B]. assert (R := remove_heavy_ok bound G U). rewrite light_kept.
  eexists. split; [exact A|]. split; [exact B|]. split; [intros v Hv Nl; apply heavy_majority; [auto|auto|rewrite light_kept; auto]|]. intro P.
  assert (P' : proper (length G) (heavy_side (snd (remove_heavy bound G)) (alg (fst (remove_heavy bound G))) G)).
  { destruct (remove_heavy bound G) as [G2 pre]. cbn [fst snd] in *. destruct R as (Lk & _). destruct P as [[u [Hu Pu]] [v [Hv Pv]]].
    split; [exists (nth u (kept bound G) 0); split; [apply (kept_rank (rh_heavy bound G) (length G) u); unfold kept in Lk; lia|rewrite B; auto; lia]|
            exists (nth v (kept bound G) 0); split; [apply (kept_rank (rh_heavy bound G) (length G) v); unfold kept in Lk; lia|rewrite B; auto; lia]]. }
  split; [exact P'|]. intros c [_ M]. rewrite A. apply M. exact P'.
Qed.
Print Assumptions C86_printed_cut.

(** star with a triangle: vertex 0 (degree 4) is heavy *)
Definition hg : graph := gr [[(1, 1); (2, 1); (3, 1); (4, 1)]; [(0, 1); (2, 1)]; [(0, 1); (1, 1); (3, 1)]; [(0, 1); (2, 1)]; [(0, 1)]].
Example C86_ex : undirected hg /\ light_vertices 4 hg = [1; 2; 3; 4] /\ fst (remove_heavy 4 hg) = gr [[(1, 1)]; [(0, 1); (2, 1)]; [(1, 1)]; []] /\
  snd (remove_heavy 4 hg) = [None; Some 0; Some 1; Some 2; Some 3] /\ proper 4 (fun i => i =? 3) /\ mincut_heavy 4 (fun _ i => i =? 3) hg = 1%N.
Proof.
  split; [apply undirectedb_ok; vm_compute; reflexivity|]. repeat (split; [vm_compute; reflexivity|]). split; [|vm_compute; reflexivity].
  split; [exists 3|exists 0]; split; auto; lia.
Qed.

(** the weights are lost: the graph on the light vertices is not the induced subgraph of a weighted graph *)
Definition wg : graph := gr [[(1, 5); (2, 5)]; [(0, 5); (2, 3)]; [(0, 5); (1, 3)]].
Theorem C86_weights_refuted : ~ (forall bound G, undirected G -> forall i j, i < length (light_vertices bound G) -> j < length (light_vertices bound G) ->
  wt (fst (remove_heavy bound G)) i j = wt G (nth i (light_vertices bound G) 0) (nth j (light_vertices bound G) 0)).
Proof. intro F. specialize (F 9%N wg ltac:(apply undirectedb_ok; vm_compute; reflexivity) 0 1 ltac:(vm_compute; lia) ltac:(vm_compute; lia)). vm_compute in F. discriminate F. Qed.
Print Assumptions C86_weights_refuted.

(** if all degrees are equal, every percentile is that degree: nothing is left of the graph, and 0 is printed *)
Theorem C86_regular_prints_zero G d alg : undirected G -> (forall v, v < length G -> sumN snd (nth v G []) = d) ->
  fst (remove_heavy d G) = [] /\ mincut_heavy d alg G = 0%N.
Proof.
  intros U R. assert (K : kept d G = []).
  { rewrite <- light_kept. unfold light_vertices. assert (X : forall l, (forall v, In v l -> v < length G) -> filter (fun v => (sumN snd (nth v G []) <? d)%N) l = []).
    { induction l as [|v l IH]; intro H; [auto|]. cbn [filter]. rewrite R by (apply H; left; auto). rewrite N.ltb_irrefl. apply IH. intros; apply H; right; auto. }
    apply X. intros v I. apply in_seq in I. lia. }
  assert (Q := remove_heavy_ok d G U). destruct (mincut_heavy_ok d alg G U) as [A _]. split.
  - destruct (remove_heavy d G) as [G2 pre]. destruct Q as (L & _). rewrite K in L. destruct G2; [auto|discriminate L].
  - rewrite A. unfold cutw. apply bsum_zero. intros u Hu. apply bsum_zero. intros v Hv.
    assert (T : forall v, v < length G -> heavy_side (snd (remove_heavy d G)) (alg (fst (remove_heavy d G))) G v = true).
    { assert (PN : forall x, x < length G -> nth x (snd (remove_heavy d G)) None = None).
      { intros x Hx. destruct (remove_heavy d G) as [G2 pre]. cbn [snd]. destruct Q as (_ & _ & _ & D & _). apply D; auto. unfold rh_heavy. rewrite R by auto. rewrite N.ltb_irrefl. auto. }
      intros x Hx. unfold heavy_side. rewrite PN by auto.
      assert (Z : forall h : nat -> bool, filter (fun e : nat * N => match nth (fst e) (snd (remove_heavy d G)) None with Some t => h t | None => false end) (nth x G []) = []).
      { intro h. destruct U as [U1 _]. specialize (U1 x). induction (nth x G []) as [|[t w] es IH]; [auto|]. cbn [filter fst]. rewrite PN by (apply (U1 t w); left; auto). apply IH. intros; eapply U1; right; eauto. }
      rewrite (Z (alg (fst (remove_heavy d G)))), (Z (fun t => negb (alg (fst (remove_heavy d G)) t))). reflexivity. }
    rewrite !T by auto. reflexivity.
Qed.
Print Assumptions C86_regular_prints_zero.
(** a cycle: minimum cut 2, printed 0 *)
Definition cyc : graph := gr [[(1, 1); (3, 1)]; [(0, 1); (2, 1)]; [(1, 1); (3, 1)]; [(2, 1); (0, 1)]].
Example C86_regular_ex : undirected cyc /\ (forall v, v < length cyc -> sumN snd (nth v cyc []) = 2%N) /\ cutw 4 (wt cyc) (fun v => v <? 2) = 2%N.
Proof.
  split; [apply undirectedb_ok; vm_compute; reflexivity|]. split; [|vm_compute; reflexivity].
  intros v Hv. do 4 (destruct v as [|v]; [reflexivity|]). cbn in Hv. lia.
Qed.

(** without -s the algorithms mark no vertex (in_cut stays false): if every heavy vertex has a light neighbour, 0 is printed *)
Theorem C86_unmarked_prints_zero bound alg G : undirected G -> (forall H i, alg H i = false) ->
  (forall v, v < length G -> ~ In v (light_vertices bound G) -> exists t w, In (t, w) (nth v G []) /\ In t (light_vertices bound G)) ->
  mincut_heavy bound alg G = 0%N.
Proof.
  intros U A0 HL. destruct (mincut_heavy_ok bound alg G U) as [A _]. rewrite A. clear A.
  destruct (C86_heavy_vertices bound G U) as (_ & _ & P1 & P2 & _). cbv zeta in *. set (pre := snd (remove_heavy bound G)) in *. set (G2 := fst (remove_heavy bound G)).
  assert (T : forall v, v < length G -> heavy_side pre (alg G2) G v = false).
  { intros v Hv. unfold heavy_side. destruct (nth v pre None) as [t|] eqn:E; [apply A0|].
    assert (Nl : ~ In v (light_vertices bound G)). { intro I. destruct (In_nth _ _ 0 I) as [i [Hi Ei]]. rewrite <- Ei, P1 in E by auto. discriminate E. }
    assert (Z : filter (fun e : nat * N => match nth (fst e) pre None with Some t => alg G2 t | None => false end) (nth v G []) = []).
    { induction (nth v G []) as [|e es IH]; [auto|]. cbn [filter]. destruct (nth (fst e) pre None) as [t|]; [rewrite A0|]; exact IH. }
    rewrite Z. destruct (HL v Hv Nl) as (t & w & I & It). destruct (In_nth _ _ 0 It) as [i [Hi Ei]].
    assert (Q : In (t, w) (filter (fun e : nat * N => match nth (fst e) pre None with Some t => negb (alg G2 t) | None => false end) (nth v G []))).
    { apply filter_In. split; [auto|]. cbn [fst]. rewrite <- Ei, P1 by auto. rewrite A0. reflexivity. }
    destruct (filter (fun e : nat * N => match nth (fst e) pre None with Some t => negb (alg G2 t) | None => false end) (nth v G [])); [contradiction|]. reflexivity. }
  unfold cutw. apply bsum_zero. intros u Hu. apply bsum_zero. intros v Hv. rewrite !T by auto. reflexivity.
Qed.
Print Assumptions C86_unmarked_prints_zero.
(** the graph above, whose minimum cut is 1 *)
Example C86_unmarked_ex : (forall v, v < length hg -> ~ In v (light_vertices 4 hg) -> exists t w, In (t, w) (nth v hg []) /\ In t (light_vertices 4 hg)) /\ mincut_heavy 4 (fun _ _ => false) hg = 0%N.
Proof.
  split; [|vm_compute; reflexivity]. intros v Hv N. destruct v as [|v]; [exists 1, 1%N; vm_compute; auto|]. exfalso. apply N. apply filter_In. split; [apply in_seq; lia|].
  do 4 (destruct v as [|v]; [reflexivity|]). cbn in Hv. lia.
Qed.
