(* Prop_Heur.v - properties C16 and C19: Matula's approximation and the heuristics. *)
From Verif Require Import SpecRel SpecCut SpecHier M_UnionFind P_UnionFind M_Heur P_Cut P_Contract P_Hier P_Noi P_NoiAny P_Check P_Heur Prop_Noi.

(** C16, full statement: for weights of any size. *)
Definition C16_claim (cf : cfg) (rnd : nat -> nat) (ord : nat -> nat -> list nat -> list nat) (G : graph) : Prop :=
  exists c marks, matula cf rnd ord G = Some (c, marks) /\
    (exists S, proper (length G) S /\ cutw (length G) (wt G) S = c) /\
    forall lambda, mincut_of G lambda -> (c <= 2 * lambda + 1)%N /\ (lambda = 0%N -> c = 0%N).
Definition C16_statement : Prop := forall cf rnd ord G, (forall r p l, Permutation (ord r p l) l) ->
  undirected G -> 2 <= length G -> (total G < 2 ^ 64 - 1)%N -> C16_claim cf rnd ord G.

(** C16 for all graphs whose smallest degree is below 2^33 (with disable_limiting: whose total weight is
    below 2^32).  Missing: larger weights, for which the statement is false (below). *)
Theorem C16_matula_approximation_partial : forall cf rnd ord G, (forall r p l, Permutation (ord r p l) l) ->
  undirected G -> 2 <= length G ->
  (if cfg_nolimit cf then total G < 2 ^ 32 else min_degree G < 2 ^ 33)%N -> C16_claim cf rnd ord G.
Proof.
  intros cf rnd ord G Po U Hn F. change (2 ^ 32)%N with 4294967296%N in F. change (2 ^ 33)%N with 8589934592%N in F.
  assert (MD : (min_degree G < 8589934592)%N).
  { destruct (cfg_nolimit cf); [|auto]. destruct (min_degree_ok G) as [_ [A _]]. specialize (A 0 ltac:(lia)).
    pose proof (hier_deg_total G [] G 0 U (hier_nil G) ltac:(lia)). lia. }
  destruct (matula_ok true cf rnd ord G Po U Hn) as [c [marks [E [[_ [P Ec]] K]]]].
  - unfold u64max. lia.
  - intros _. destruct (cfg_nolimit cf); [auto|]. unfold mbound. pose proof (N.div_lt_upper_bound (min_degree G) 2 4294967296). lia.
  - exists c, marks. split; [auto|]. split; [eexists; split; [exact P|exact Ec]|].
    intros lambda [[S [PS Es]] _]. rewrite <- Es. apply K; auto.
Qed.
Print Assumptions C16_matula_approximation_partial.

(** for weights of any size Matula's algorithm ends, and the marks are a cut of the returned value *)
Theorem C16_matula_real_cut : forall cf rnd ord G, (forall r p l, Permutation (ord r p l) l) ->
  undirected G -> 2 <= length G -> (min_degree G < u64max)%N ->
  exists c marks, matula cf rnd ord G = Some (c, marks) /\ length marks = length G /\
    proper (length G) (fun v => nth v marks false) /\ cutw (length G) (wt G) (fun v => nth v marks false) = c.
Proof.
  intros cf rnd ord G Po U Hn B. destruct (matula_ok false cf rnd ord G Po U Hn B) as [c [marks [E [M _]]]]; [discriminate|].
  exists c, marks. split; [auto|exact M].
Qed.
Print Assumptions C16_matula_real_cut.

(** The 32-bit queue key again: with M = 2^32, vertex 1 has key M read as 0, vertex 2 with key 1 is
    scanned first and joined with 1.  The minimum cut {2, 5} of weight 2 is lost, the answer is M + 1. *)
Definition c16_bad : graph :=
  [[(1, 4294967296%N); (2, 1%N); (3, 8589934594%N)]; [(0, 4294967296%N); (2, 1%N); (4, 8589934594%N)];
   [(0, 1%N); (1, 1%N); (5, 8589934594%N)]; [(0, 8589934594%N)]; [(1, 8589934594%N)]; [(2, 8589934594%N)]].
Example c16_bad_run : exists m, matula (mk_cfg KDefault false) (fun _ => 0) (fun _ _ l => l) c16_bad = Some (4294967297%N, m).
Proof. eexists. vm_compute. reflexivity. Qed.

Theorem C16_matula_approximation_refuted : ~ C16_statement.
Proof.
  intro H. destruct (H (mk_cfg KDefault false) (fun _ => 0) (fun _ _ l => l) c16_bad) as [c [marks [E [_ K]]]].
  - intros. apply Permutation_refl.
  - apply undirectedb_ok. reflexivity.
  - simpl. lia.
  - reflexivity.
  - destruct c16_bad_run as [m R]. rewrite E in R. injection R as -> _.
    destruct (K 2%N) as [K1 _]; [apply (mincut_check c16_bad 2 [false; false; true; false; false; true]); reflexivity|].
    apply K1. reflexivity.
Qed.
Print Assumptions C16_matula_approximation_refuted.

(** C19: viecut (any threshold in place of 10000), every shuffle, coin and hash order: it ends and returns the
    weight of a proper subset, so at least the minimum cut. *)
Theorem C19_viecut_real_cut : forall big vr cf rnd ord G,
  (forall r n v, In v (v_perm vr r n) -> v < n) -> (forall r s p l, Permutation (v_ord vr r s p l) l) ->
  (forall r p l, Permutation (ord r p l) l) -> undirected G -> 2 <= length G -> (total G < 2 ^ 64 - 1)%N ->
  exists c marks, viecut_with big vr cf rnd ord G = Some (c, marks) /\
    (exists S, proper (length G) S /\ cutw (length G) (wt G) S = c) /\
    (forall lambda, mincut_of G lambda -> (lambda <= c)%N) /\ (c <= min_degree G)%N.
Proof.
  intros big vr cf rnd ord G Vp Vo Po U Hn B. change (2 ^ 64 - 1)%N with u64max in B.
  destruct (viecut_with_ok big vr cf rnd ord G (conj Vp Vo) Po U Hn B) as [c [marks [E [R L]]]].
  exists c, marks. split; [auto|]. split; [auto|]. split; [|auto].
  intros lambda [_ M]. destruct R as [S [P <-]]. auto.
Qed.
Print Assumptions C19_viecut_real_cut.

(** up to 10000 vertices viecut is exact and its saved cut is right, under the conditions of C13 *)
Theorem C19_viecut_small_exact : forall vr cf rnd ord G, (forall r p l, Permutation (ord r p l) l) ->
  undirected G -> 2 <= length G -> length G <= 10 * 10 * 10 * 10 ->
  (if cfg_nolimit cf then total G < 2 ^ 32 else min_degree G < 2 ^ 32)%N ->
  exists c marks, viecut vr cf rnd ord G = Some (c, marks) /\ mincut_of G c /\
    proper (length G) (fun v => nth v marks false) /\ cutw (length G) (wt G) (fun v => nth v marks false) = c.
Proof.
  intros vr cf rnd ord G Po U Hn Lb F. change (2 ^ 32)%N with 4294967296%N in F.
  assert (Fi : fits cf G) by (unfold fits; destruct (cfg_nolimit cf); exact F).
  destruct (noi_ok cf rnd ord G Po U Hn Fi) as [c [m [E [[_ M] K]]]].
  exists c, m. unfold viecut. rewrite viecut_small; auto.
  unfold fits in Fi. destruct (cfg_nolimit cf); unfold u64max; [|lia].
  destruct (min_degree_ok G) as [_ [A _]]. specialize (A 0 ltac:(lia)).
  pose proof (hier_deg_total G [] G 0 U (hier_nil G) ltac:(lia)). lia.
Qed.
Print Assumptions C19_viecut_small_exact.

(** C19: padberg_rinaldi ends, and its marks are a cut of the returned value, for weights of any size *)
Theorem C19_padberg_rinaldi_real_cut : forall ord G, (forall r s p l, Permutation (ord r s p l) l) ->
  undirected G -> 2 <= length G -> (min_degree G < u64max)%N ->
  exists c marks, padberg_rinaldi ord G = Some (c, marks) /\ length marks = length G /\
    proper (length G) (fun v => nth v marks false) /\ cutw (length G) (wt G) (fun v => nth v marks false) = c /\
    (c <= min_degree G)%N.
Proof.
  intros ord G Po U Hn B. destruct (padberg_rinaldi_ok ord G Po U Hn B) as [c [marks [E [[L [P C]] D]]]].
  exists c, marks. auto 6.
Qed.
Print Assumptions C19_padberg_rinaldi_real_cut.

(** C19: whenever ks_minimum_cut returns (it need not: the sampling loop has no bound), the value is the
    weight of a proper subset; optimal is the caller's stopping value *)
Theorem C19_karger_stein_real_cut : forall kr cf optimal G c,
  (forall i p q l, Permutation (k_ord kr i p q l) l) -> (forall i p r q l, Permutation (k_nord kr i p r q l) l) ->
  undirected G -> 2 <= length G -> (total G < 2 ^ 64 - 1)%N -> (optimal < 2 ^ 64 - 1)%N ->
  ks_minimum_cut kr cf optimal G = Some c ->
  (exists S, proper (length G) S /\ cutw (length G) (wt G) S = c) /\ forall lambda, mincut_of G lambda -> (lambda <= c)%N.
Proof.
  intros kr cf optimal G c Ko Kn U Hn B Op E. change (2 ^ 64 - 1)%N with u64max in B, Op.
  destruct (ks_ok kr cf optimal G c (conj Ko Kn) U Hn B E) as [[_ X]|R]; [lia|].
  split; [auto|]. intros lambda [_ M]. destruct R as [S [P <-]]. auto.
Qed.
Print Assumptions C19_karger_stein_real_cut.

(** Examples on the graph of C13 (minimum cut 3): all of the drivers run. *)
Example c16_run : exists m, matula (mk_cfg KDefault false) (fun _ => 0) (fun _ _ l => l) c13_graph = Some (3%N, m).
Proof. eexists. vm_compute. reflexivity. Qed.
Definition c19_vr : vrand := mk_vrand (fun _ i => Nat.even i) (fun _ n => rev (seq 0 n)) (fun _ _ _ l => l).
Example c19_viecut_run : exists c m, viecut_with 3 c19_vr (mk_cfg KDefault false) (fun _ => 0) (fun _ _ l => l) c13_graph = Some (c, m) /\ (3 <= c)%N.
Proof. eexists _, _. split; [vm_compute; reflexivity|]. vm_compute. discriminate. Qed.
Example c19_vr_ok : forall r n v, In v (v_perm c19_vr r n) -> v < n.
Proof. intros r n v H. cbn in H. apply in_rev in H. apply in_seq in H. lia. Qed.
Example c19_pr_run : exists c m, padberg_rinaldi (fun _ _ _ l => l) c13_graph = Some (c, m) /\ (3 <= c)%N.
Proof. eexists _, _. split; [vm_compute; reflexivity|]. vm_compute. discriminate. Qed.
Definition c19_kr : krand := mk_krand (fun i => seq i 20) (fun _ _ _ l => l) (fun _ _ _ => 0) (fun _ _ _ _ l => l).
Example c19_ks_run : exists c, ks_minimum_cut c19_kr (mk_cfg KDefault false) 0 c13_graph = Some c /\ (3 <= c)%N.
Proof. eexists. split; [vm_compute; reflexivity|]. vm_compute. discriminate. Qed.

(** The saved cut of viecut is not claimed: once its loop was entered (in the code: more than 10000
    vertices; here the threshold is scaled down to 20 and the graph has 24 vertices) the cut found by NOI
    on the coarse graph is returned as value, but not transferred to the marks of the input. *)
Definition c19_coarse : list (nat * nat) :=
  [(0,3);(0,4);(0,5);(1,3);(1,4);(1,5);(2,3);(2,4);(2,5);(6,9);(6,10);(6,11);(7,9);(7,10);(7,11);(8,9);(8,10);(8,11);(0,6)].
Definition c19_pairs : graph := map (fun v => let i := v / 2 in
  (if Nat.even v then v + 1 else v - 1, 9%N) ::
  (if Nat.even v then flat_map (fun e => if Nat.eqb (fst e) i then [(2 * snd e, 1%N)] else if Nat.eqb (snd e) i then [(2 * fst e, 1%N)] else [])
                               c19_coarse else [])) (seq 0 24).
Theorem C19_viecut_saved_cut_scaled_refuted : ~ forall big vr cf rnd ord G c marks,
  (forall r n v, In v (v_perm vr r n) -> v < n) -> (forall r s p l, Permutation (v_ord vr r s p l) l) ->
  (forall r p l, Permutation (ord r p l) l) -> undirected G -> 2 <= length G -> (total G < 2 ^ 64 - 1)%N ->
  viecut_with big vr cf rnd ord G = Some (c, marks) -> cutw (length G) (wt G) (fun v => nth v marks false) = c.
Proof.
  intro H.
  pose (ord := fun (_ _ : nat) (l : list nat) => l).
  assert (R : match viecut_with 20 c19_vr (mk_cfg KDefault false) (fun _ => 0) ord c19_pairs with
              | Some (c, m) => ((c =? 1) && (cutw (length c19_pairs) (wt c19_pairs) (fun v => nth v m false) =? 3))%N
              | None => false end = true) by (vm_compute; reflexivity).
  destruct (viecut_with 20 c19_vr (mk_cfg KDefault false) (fun _ => 0) ord c19_pairs) as [[c m]|] eqn:E; [|discriminate].
  apply andb_prop in R. destruct R as [Rc Rw]. apply N.eqb_eq in Rc, Rw.
  assert (U : undirected c19_pairs) by (apply undirectedb_ok; vm_compute; reflexivity).
  assert (L : 2 <= length c19_pairs) by (apply Nat.leb_le; vm_compute; reflexivity).
  assert (T : (total c19_pairs < 2 ^ 64 - 1)%N) by (apply N.ltb_lt; vm_compute; reflexivity).
  pose proof (H 20 c19_vr (mk_cfg KDefault false) (fun _ => 0) ord c19_pairs c m c19_vr_ok
    (fun _ _ _ l => Permutation_refl l) (fun _ _ l => Permutation_refl l) U L T E) as W.
  rewrite W, Rc in Rw. discriminate.
Qed.
Print Assumptions C19_viecut_saved_cut_scaled_refuted.
