(* P_Heur.v - proofs about Matula's algorithm, Padberg-Rinaldi, VieCut and Karger-Stein. *)
From Verif Require Import SpecRel M_UnionFind P_UnionFind SpecCut SpecHier SpecPR SpecCluster P_Cut M_Heur P_Contract P_Hier
  P_Capforest P_Noi P_NoiAny P_PR P_PRTests P_Cluster.

(** * Matula *)

Definition mbound (c : N) : N := N.max (c / 2) 1.

Lemma mbound_mono c c' : (c <= c')%N -> (mbound c <= mbound c')%N.
Proof. intro H. unfold mbound. pose proof (N.div_le_mono c c' 2). lia. Qed.
Lemma mbound_le c : (0 < c)%N -> (mbound c <= c)%N.
Proof. intro H. unfold mbound. pose proof (N.div_le_upper_bound c 2 c). lia. Qed.

(** [sv]: nothing is known about cuts if false *)
Record mat_inv (sv : bool) (G0 : graph) (maps : list (list nat)) (G : graph) (c : N) (marks : list bool) : Prop := {
  mt_a : any_inv G0 maps G c marks;
  mt_s : sv = true -> forall S, proper (length G0) S -> (cutw (length G0) (wt G0) S < mbound c)%N ->
           exists S', proper (length G) S' /\ cutw (length G) (wt G) S' = cutw (length G0) (wt G0) S }.

Lemma matula_loop_ok sv cf rnd ord G0 : (forall r p l, Permutation (ord r p l) l) -> undirected G0 ->
  forall fuel maps G c marks, mat_inv sv G0 maps G c marks -> length G <= fuel ->
  (sv = true -> if cfg_nolimit cf then (total G0 < 4294967296)%N else (mbound c < 4294967296)%N) ->
  exists c' marks', matula_loop fuel cf rnd ord maps G c marks = Some (c', marks') /\ marks_ok G0 marks' c' /\
    (sv = true -> forall S, proper (length G0) S -> (c' <= 2 * cutw (length G0) (wt G0) S + 1)%N /\
                   (cutw (length G0) (wt G0) S = 0%N -> c' = 0%N)).
Proof.
  intros Po U. induction fuel as [|fuel IH]; intros maps G c marks I Hf K; [destruct I as [[] _]; lia|].
  destruct I as [[Hh Hn Hm Hd Hc] Hs].
  destruct (hier_ok G0 maps G U Hh) as [UG [Cl Ct]].
  cbn [matula_loop]. destruct ((2 <? length G) && (0 <? c)%N) eqn:Go.
  - apply andb_prop in Go. destruct Go as [G2 Pc]. apply Nat.ltb_lt in G2. apply N.ltb_lt in Pc.
    fold (mbound c).
    assert (Hb : (0 < mbound c)%N) by (unfold mbound; lia).
    assert (Hd' : forall v, v < length G -> (mbound c <= deg G v)%N).
    { intros v Hv. specialize (Hd ltac:(lia) v Hv). pose proof (mbound_le c Pc). lia. }
    assert (CF : exists u ps, capforest cf (rnd (S fuel)) G (mbound c) = Some u /\ inv (length G) ps u /\ cnt u < length G /\
                   (sv = true -> forall x y, In (x, y) ps -> conn_ge (length G) (wt G) (mbound c) x y)).
    { destruct sv.
      - assert (KL : (key_limit cf G (mbound c) < 4294967296)%N).
        { specialize (K eq_refl). unfold key_limit. destruct (cfg_nolimit cf) eqn:NL; [|auto].
          destruct (max_degree_in G) as [->|[v [Hv ->]]]; [lia|]. pose proof (hier_deg_total G0 maps G v U Hh Hv). lia. }
        destruct (capforest_good cf (rnd (S fuel)) G (mbound c) UG ltac:(lia) KL) as [u [ps [E [Iu [Pp Pr]]]]].
        exists u, ps. auto 8.
      - destruct (capforest_any cf (rnd (S fuel)) G (mbound c) UG ltac:(lia)) as [u [ps [E [Iu Pr]]]].
        exists u, ps. split; [auto|]. split; [auto|]. split; [auto|]. discriminate. }
    destruct CF as (u & ps & -> & Iu & Pr & Pp).
    destruct (from_uf_ok (ord (S fuel)) G ps u (Po (S fuel)) UG Iu) as [H [m [-> [Lm [LH [Cn [Cl' [Ct' [UH _]]]]]]]]].
    destruct (update_cut (maps ++ [m]) H c marks) as [c' marks'] eqn:E.
    assert (Hh' : hier G0 (maps ++ [m]) H) by (eapply hier_snoc; eauto).
    destruct (update_cut_ok G0 (maps ++ [m]) H c marks c' marks' U Hh' Hc Hm E) as [M' [Le D']].
    apply IH; [|lia|].
    + constructor.
      * constructor; auto; [|lia]. rewrite LH. apply (cnt_pos (length G) ps u Iu). lia.
      * intros Sv S PS L. pose proof (mbound_mono c' c Le) as Mm.
        destruct (Hs Sv S PS ltac:(lia)) as [S' [PS' E']].
        destruct (contraction_keeps _ _ _ _ _ (mbound c) Cl' Ct') with (S := S') as [S2 [PS2 E2]]; auto.
        -- intros x y Hx Hy Q. apply (conn_conn_ge _ _ _ ps); auto. apply Cn; auto.
        -- lia.
        -- exists S2. split; [auto|lia].
    + intro Sv. specialize (K Sv). pose proof (mbound_mono c' c Le). destruct (cfg_nolimit cf); [auto|lia].
  - exists c, marks. split; [auto|]. split; [auto|]. intros Sv S PS. specialize (Hs Sv S PS).
    apply andb_false_iff in Go. destruct Go as [Go|Go]; [|apply N.ltb_ge in Go; split; lia]. apply Nat.ltb_ge in Go.
    assert (X : (cutw (length G0) (wt G0) S < mbound c)%N -> (c <= cutw (length G0) (wt G0) S)%N).
    { intro L. destruct (Hs L) as [S' [[[a [Ha Ea]] [b [Hb Eb]]] E']].
      assert (a <> b) by congruence. assert (L2 : length G = 2) by lia.
      specialize (Hd ltac:(lia) a Ha). rewrite deg_cut in Hd by auto.
      assert (cutw (length G) (wt G) S' = cutw (length G) (wt G) (fun x => x =? a)).
      { apply cutw_ext. intros x Hx. destruct (Nat.eqb_spec x a) as [->|Nx]; [auto|]. assert (x = b) by lia. congruence. }
      lia. }
    destruct (N.lt_ge_cases (cutw (length G0) (wt G0) S) (mbound c)) as [L|L].
    + specialize (X L). split; [lia|]. lia.
    + unfold mbound in L. pose proof (N.div_mod c 2 ltac:(lia)) as D. pose proof (N.mod_lt c 2 ltac:(lia)). split; lia.
Qed.

Lemma any_init G : undirected G -> 2 <= length G -> (min_degree G < u64max)%N -> any_inv G [] G (min_degree G) (initial_marks G).
Proof.
  intros U Hn B. constructor; auto.
  - constructor.
  - lia.
  - apply initial_marks_ok; auto.
  - intros _ v Hv. apply min_degree_ok. auto.
  - lia.
Qed.

Theorem matula_ok sv cf rnd ord G : (forall r p l, Permutation (ord r p l) l) -> undirected G -> 2 <= length G ->
  (min_degree G < u64max)%N ->
  (sv = true -> if cfg_nolimit cf then (total G < 4294967296)%N else (mbound (min_degree G) < 4294967296)%N) ->
  exists c marks, matula cf rnd ord G = Some (c, marks) /\ marks_ok G marks c /\
    (sv = true -> forall S, proper (length G) S -> (c <= 2 * cutw (length G) (wt G) S + 1)%N /\ (cutw (length G) (wt G) S = 0%N -> c = 0%N)).
Proof.
  intros Po U Hn B K. unfold matula. apply matula_loop_ok; auto. constructor; [apply any_init; auto|].
  intros _ S PS L. exists S. auto.
Qed.

(** * levels of the heuristic drivers *)

Definition lev_ok (G0 : graph) (l : lev) : Prop := any_inv G0 (l_maps l) (l_graph l) (l_cut l) (l_marks l).

Lemma cnt_le n ps u : inv n ps u -> cnt u <= n.
Proof.
  intros I. destruct (inv_classes n ps u I) as [reps [L [ND [Lt _]]]]. rewrite <- L, <- (seq_length n 0).
  apply NoDup_incl_length; [auto|]. intros r Hr. apply in_seq. specialize (Lt r Hr). lia.
Qed.

Lemma contract_step_ok G0 ord l u ps : perm_ord ord -> undirected G0 -> lev_ok G0 l -> inv (length (l_graph l)) ps u ->
  exists l', contract_step ord l (Some u) = Some l' /\ lev_ok G0 l' /\ (l_cut l' <= l_cut l)%N /\
    length (l_graph l') <= length (l_graph l).
Proof.
  intros Po U [Hh Hn Hm Hd Hc] Iu. unfold contract_step.
  destruct (hier_ok G0 _ _ U Hh) as [UG [Cl Ct]].
  destruct (from_uf_ok ord (l_graph l) ps u Po UG Iu) as [H [m [-> [Lm [LH [Cn [Cl' [Ct' [UH _]]]]]]]]].
  destruct (update_cut (l_maps l ++ [m]) H (l_cut l) (l_marks l)) as [c' marks'] eqn:E.
  assert (Hh' : hier G0 (l_maps l ++ [m]) H) by (eapply hier_snoc; eauto).
  destruct (update_cut_ok G0 _ H (l_cut l) (l_marks l) c' marks' U Hh' Hc Hm E) as [M' [Le D']].
  eexists. split; [reflexivity|]. split; [|cbn; split; [auto|rewrite LH; apply (cnt_le _ ps); auto]].
  constructor; cbn; auto; [|lia]. rewrite LH. apply (cnt_pos _ ps u Iu). auto.
Qed.

(** * Padberg-Rinaldi *)
Lemma pr_loop_ok ord G0 : (forall r s, perm_ord (ord r s)) -> undirected G0 ->
  forall fuel last l, lev_ok G0 l -> last <= fuel ->
  exists l', pr_loop fuel ord last l = Some l' /\ lev_ok G0 l' /\ (l_cut l' <= l_cut l)%N.
Proof.
  intros Po U. induction fuel as [|fuel IH]; intros last l Lo F; cbn [pr_loop].
  - destruct (Nat.ltb_spec (length (l_graph l)) last); [lia|]. rewrite andb_false_r. exists l. split; [auto|]. split; [auto|lia].
  - destruct ((2 <? length (l_graph l)) && (length (l_graph l) <? last)) eqn:Go; [|exists l; split; [auto|split; [auto|lia]]].
    apply andb_prop in Go. destruct Go as [_ Go]. apply Nat.ltb_lt in Go.
    destruct (hier_ok G0 _ _ U (an_h _ _ _ _ _ Lo)) as [UG _].
    destruct (pr_tests34_ok (l_graph l) (l_cut l) false UG) as (u & ps & bs & con & -> & Iu & _).
    destruct (contract_step_ok G0 (ord (S fuel) 0) l u ps (Po _ _) U Lo Iu) as (l1 & -> & Lo1 & C1 & N1).
    destruct (hier_ok G0 _ _ U (an_h _ _ _ _ _ Lo1)) as [UG1 _].
    destruct (pr_tests12_ok (l_graph l1) (l_cut l1) false UG1) as (u2 & ps2 & -> & Iu2 & _).
    destruct (contract_step_ok G0 (ord (S fuel) 1) l1 u2 ps2 (Po _ _) U Lo1 Iu2) as (l2 & -> & Lo2 & C2 & N2).
    destruct (IH (length (l_graph l)) l2 Lo2 ltac:(lia)) as (l3 & -> & Lo3 & C3).
    exists l3. split; [auto|]. split; [auto|lia].
Qed.

Theorem padberg_rinaldi_ok ord G : (forall r s, perm_ord (ord r s)) -> undirected G -> 2 <= length G -> (min_degree G < u64max)%N ->
  exists c marks, padberg_rinaldi ord G = Some (c, marks) /\ marks_ok G marks c /\ (c <= min_degree G)%N.
Proof.
  intros Po U Hn B. unfold padberg_rinaldi.
  destruct (pr_loop_ok ord G Po U (S (length G)) (S (length G)) (mk_lev [] G (min_degree G) (initial_marks G))) as (l & -> & Lo & C).
  - apply any_init; auto.
  - lia.
  - exists (l_cut l), (l_marks l). split; [auto|]. split; [apply Lo|exact C].
Qed.

(** * VieCut: the stored partition indices may differ from the contraction, so only the value counts *)
Definition lev_val (G0 : graph) (l : lev) : Prop := exists maps marks, any_inv G0 maps (l_graph l) (l_cut l) marks.

Lemma update_cut_val maps maps' H c m m' : fst (update_cut maps H c m) = fst (update_cut maps' H c m').
Proof. unfold update_cut. destruct (1 <? length H); reflexivity. Qed.

Lemma contract_step_val G0 ord l u ps : perm_ord ord -> undirected G0 -> lev_val G0 l -> inv (length (l_graph l)) ps u ->
  exists l', contract_step ord l (Some u) = Some l' /\ lev_val G0 l' /\ (l_cut l' <= l_cut l)%N /\
    length (l_graph l') <= length (l_graph l).
Proof.
  intros Po U [maps [marks Lo]] Iu.
  destruct (contract_step_ok G0 ord (mk_lev maps (l_graph l) (l_cut l) marks) u ps Po U Lo Iu) as (l' & E & Lo' & C & N).
  unfold contract_step in *. cbn [l_graph l_cut l_maps l_marks] in *.
  destruct (from_union_find ord (l_graph l) u) as [[H m]|]; [|discriminate].
  destruct (update_cut (maps ++ [m]) H (l_cut l) marks) as [c1 m1] eqn:E1.
  destruct (update_cut (l_maps l ++ [m]) H (l_cut l) (l_marks l)) as [c2 m2] eqn:E2.
  assert (c2 = c1).
  { pose proof (update_cut_val (maps ++ [m]) (l_maps l ++ [m]) H (l_cut l) marks (l_marks l)) as X. rewrite E1, E2 in X. auto. }
  subst c2. injection E as <-. cbn in *. eexists. split; [reflexivity|]. split; [|cbn; auto].
  eexists _, _. cbn. exact Lo'.
Qed.

Lemma lp_step_ok G0 coin perm ord l : perm_ord ord -> undirected G0 -> lev_val G0 l ->
  (forall v, In v perm -> v < length (l_graph l)) ->
  exists l', lp_step coin perm ord l = Some l' /\ lev_val G0 l' /\ (l_cut l' <= l_cut l)%N /\
    length (l_graph l') <= length (l_graph l).
Proof.
  intros Po U [maps [marks [Hh Hn Hm Hd Hc]]] Pm. unfold lp_step.
  destruct (hier_ok G0 _ _ U Hh) as [UG _].
  destruct (propagate_ok coin perm (l_graph l) UG Pm) as (cl & -> & Lc & Rc).
  destruct (remap_ok (l_graph l) cl Lc Rc) as (m0 & r0 & -> & C0 & _).
  destruct (find_trivial_ok (l_graph l) m0 r0 (l_cut l) C0) as (m1 & r1 & -> & C1).
  pose proof C1 as [Cm Con Crev].
  destruct (contract_ok ord (l_graph l) m1 r1 Po UG Cm (proj1 Con) Crev) as (H & -> & LH & Ct' & UH & _).
  destruct (update_cut (maps ++ [m1]) H (l_cut l) marks) as [c1 k1] eqn:E1.
  destruct (update_cut (l_maps l ++ [m0]) H (l_cut l) (l_marks l)) as [c2 k2] eqn:E2.
  assert (c2 = c1).
  { pose proof (update_cut_val (maps ++ [m1]) (l_maps l ++ [m0]) H (l_cut l) marks (l_marks l)) as X. rewrite E1, E2 in X. auto. }
  subst c2.
  assert (Hh' : hier G0 (maps ++ [m1]) H) by (eapply hier_snoc; eauto; rewrite LH; auto).
  destruct (update_cut_ok G0 _ H (l_cut l) marks c1 k1 U Hh' Hc Hm E1) as [M' [Le D']].
  eexists. split; [reflexivity|]. cbn. split; [|split; [auto|rewrite LH; apply (clusters_le _ m1); auto]].
  exists (maps ++ [m1]), k1. constructor; cbn; auto; [|lia].
  rewrite LH. destruct (proj1 Con 0 ltac:(lia)); lia.
Qed.

Definition vrand_ok (vr : vrand) : Prop :=
  (forall r n v, In v (v_perm vr r n) -> v < n) /\ forall r s, perm_ord (v_ord vr r s).

Lemma viecut_loop_ok big vr G0 : vrand_ok vr -> undirected G0 ->
  forall fuel prev l, lev_val G0 l ->
  match prev with None => S (length (l_graph l)) | Some p => Nat.min p (length (l_graph l)) end <= fuel ->
  exists l', viecut_loop fuel big vr prev l = Some l' /\ lev_val G0 l' /\ (l_cut l' <= l_cut l)%N.
Proof.
  intros [Vp Vo] U. induction fuel as [|fuel IH]; intros prev l Lo F; cbn [viecut_loop].
  - destruct prev as [p|]; [|lia]. destruct Lo as [maps [marks Lo]].
    pose proof (an_n _ _ _ _ _ Lo). assert (p = 0) by lia. subst p.
    assert (length (l_graph l) <? 0 = false) as -> by (apply Nat.ltb_ge; lia). rewrite andb_false_r. exists l. split; [auto|].
    split; [exists maps, marks; auto|lia].
  - destruct ((big <? length (l_graph l)) && match prev with None => true | Some p => length (l_graph l) <? p end) eqn:Go;
      [|exists l; split; [auto|split; [auto|lia]]].
    apply andb_prop in Go. destruct Go as [_ Go].
    destruct (lp_step_ok G0 (v_coin vr (S fuel)) (v_perm vr (S fuel) (length (l_graph l))) (v_ord vr (S fuel) 0) l (Vo _ _) U Lo (Vp _ _))
      as (l1 & -> & Lo1 & C1 & N1).
    assert (UG1 : undirected (l_graph l1)). { destruct Lo1 as [? [? L]]. apply (hier_ok G0 _ _ U (an_h _ _ _ _ _ L)). }
    destruct (pr_tests12_ok (l_graph l1) (l_cut l1) false UG1) as (u2 & ps2 & -> & Iu2 & _).
    destruct (contract_step_val G0 (v_ord vr (S fuel) 1) l1 u2 ps2 (Vo _ _) U Lo1 Iu2) as (l2 & -> & Lo2 & C2 & N2).
    assert (UG2 : undirected (l_graph l2)). { destruct Lo2 as [? [? L]]. apply (hier_ok G0 _ _ U (an_h _ _ _ _ _ L)). }
    destruct (pr_tests34_ok (l_graph l2) (l_cut l2) false UG2) as (u3 & ps3 & bs & con & -> & Iu3 & _).
    destruct (contract_step_val G0 (v_ord vr (S fuel) 2) l2 u3 ps3 (Vo _ _) U Lo2 Iu3) as (l3 & -> & Lo3 & C3 & N3).
    destruct (Nat.eq_dec (length (l_graph l3)) (length (l_graph l2))) as [Same|Less].
    + (* the next test ends the loop *)
      assert (X : viecut_loop fuel big vr (Some (length (l_graph l2))) l3 = Some l3).
      { destruct fuel; cbn [viecut_loop]; rewrite Same, Nat.ltb_irrefl, andb_false_r; reflexivity. }
      rewrite X. exists l3. split; [auto|]. split; [auto|lia].
    + destruct (IH (Some (length (l_graph l2))) l3 Lo3) as (l4 & -> & Lo4 & C4).
      * destruct prev as [p|]; [apply Nat.ltb_lt in Go|]; lia.
      * exists l4. split; [auto|]. split; [auto|lia].
Qed.

(** a cut of a level is a cut of the input *)
Lemma hier_real G0 maps H S : undirected G0 -> hier G0 maps H -> proper (length H) S ->
  exists S0, proper (length G0) S0 /\ cutw (length G0) (wt G0) S0 = cutw (length H) (wt H) S.
Proof.
  intros U Hh P. destruct (hier_ok G0 maps H U Hh) as [UH [Cl Ct]].
  exists (fun v => S (coarse_id maps v)). split; [apply (proper_pull _ _ _ S Cl P)|].
  symmetry. apply (contraction_cut _ _ _ _ _ _ (proj1 Cl) Ct).
Qed.

Lemma min_degree_lt G0 maps H : undirected G0 -> hier G0 maps H -> 0 < length H -> (total G0 < u64max)%N -> (min_degree H < u64max)%N.
Proof.
  intros U Hh Hn B. destruct (min_degree_ok H) as [_ [A _]]. specialize (A 0 Hn).
  pose proof (hier_deg_total G0 maps H 0 U Hh Hn). lia.
Qed.

Definition real_cut (G : graph) (c : N) : Prop := exists S, proper (length G) S /\ cutw (length G) (wt G) S = c.

Theorem viecut_with_ok big vr cf rnd ord G : vrand_ok vr -> (forall r p l, Permutation (ord r p l) l) ->
  undirected G -> 2 <= length G -> (total G < u64max)%N ->
  exists c marks, viecut_with big vr cf rnd ord G = Some (c, marks) /\ real_cut G c /\ (c <= min_degree G)%N.
Proof.
  intros Vo Po U Hn B. unfold viecut_with.
  assert (B0 : (min_degree G < u64max)%N) by (apply (min_degree_lt G [] G); auto; [constructor|lia]).
  destruct (viecut_loop_ok big vr G Vo U (S (S (length G))) None (mk_lev [] G (min_degree G) (initial_marks G))) as (l & -> & Lo & C).
  - exists [], (initial_marks G). apply any_init; auto.
  - cbn. lia.
  - destruct Lo as [maps [marks [Hh Hn' Hm Hd Hc]]]. cbn in C.
    assert (R : real_cut G (l_cut l)) by (destruct Hm as [_ [P E]]; eexists; split; [exact P|exact E]).
    destruct (Nat.ltb_spec 1 (length (l_graph l))) as [L|L].
    + destruct (hier_ok G _ _ U Hh) as [UH _].
      destruct (noi_any cf rnd ord (l_graph l) Po UH ltac:(lia)) as [c [m [-> [[_ [P E]] _]]]].
      { apply (min_degree_lt G maps); auto. }
      eexists _, _. split; [reflexivity|]. split; [|lia].
      destruct (N.min_spec (l_cut l) c) as [[_ ->]|[_ ->]]; [auto|].
      destruct (hier_real G maps _ _ U Hh P) as [S0 [P0 E0]]. exists S0. split; [auto|congruence].
    + eexists _, _. split; [reflexivity|]. auto.
Qed.

(** below the bound, viecut is NOI *)
Theorem viecut_small big vr cf rnd ord G : (forall r p l, Permutation (ord r p l) l) ->
  undirected G -> 2 <= length G -> length G <= big -> (min_degree G < u64max)%N ->
  viecut_with big vr cf rnd ord G = noi cf rnd ord G.
Proof.
  intros Po U Hn Lb B. unfold viecut_with. cbn [viecut_loop l_graph l_maps l_cut].
  destruct (Nat.ltb_spec big (length G)); [lia|]. cbn [andb].
  cbn [l_graph l_maps l_cut length Nat.eqb]. destruct (Nat.ltb_spec 1 (length G)); [|lia].
  destruct (noi_any cf rnd ord G Po U Hn B) as [c [m [-> [_ L]]]].
  rewrite N.min_r by auto. reflexivity.
Qed.

(** * Karger-Stein *)
Lemma union_cnt n ps u a b u' t : inv n ps u -> a < n -> b < n -> uf_union u a b = Some (u', t) ->
  cnt u' = if t then cnt u - 1 else cnt u.
Proof.
  intros I Ha Hb. unfold uf_union.
  destruct (find_inv _ _ _ a I Ha) as (u1 & ra & -> & I1 & _ & C1 & _).
  destruct (find_inv _ _ _ b I1 Hb) as (u2 & rb & -> & I2 & _ & C2 & _).
  destruct (ra =? rb); [intro E; injection E as <- <-; congruence|].
  destruct (_ <? _); intro E; injection E as <- <-; cbn; congruence.
Qed.

Lemma ks_sample_ok edges n : (forall a b, In (a, b) edges -> a < n /\ b < n) ->
  forall draws need u ps u', inv n ps u -> ks_sample edges need u draws = Some u' ->
  need <= cnt u -> exists ps', inv n ps' u' /\ cnt u' = cnt u - need.
Proof.
  intros Ed. induction draws as [|d ds IH]; intros need u ps u' I E L; destruct need as [|need]; cbn [ks_sample] in E.
  - injection E as <-. exists ps. split; [auto|lia].
  - discriminate.
  - injection E as <-. exists ps. split; [auto|lia].
  - destruct (nth_error edges (d mod length edges)) as [[a b]|] eqn:Ne; [|discriminate].
    apply nth_error_In in Ne. destruct (Ed a b Ne) as [Ha Hb].
    destruct (union_inv n ps u a b I Ha Hb) as (u1 & t & Eu & I1 & _). rewrite Eu in E.
    pose proof (union_cnt n ps u a b u1 t I Ha Hb Eu) as C.
    destruct t.
    + destruct (IH need u1 _ u' I1 E ltac:(lia)) as [ps' [I' C']]. exists ps'. split; [auto|lia].
    + destruct (IH (S need) u1 _ u' I1 E ltac:(lia)) as [ps' [I' C']]. exists ps'. split; [auto|lia].
Qed.

Definition heavy_ok (n : nat) (st : uf * nat) : Prop := exists ps, inv n ps (fst st) /\ cnt (fst st) = snd st /\ 2 <= snd st.

Lemma ks_heavy_edge_ok G v st e : undirected G -> v < length G -> In e (nth v G []) -> heavy_ok (length G) st ->
  exists st', ks_heavy_edge G v st e = Some st' /\ heavy_ok (length G) st'.
Proof.
  intros [U _] Hv He [ps [I [C L]]]. destruct st as [u cur], e as [t w]. cbn in I, C, L. unfold ks_heavy_edge.
  destruct (U v t w He) as [Ht _].
  match goal with |- context [if ?b then _ else _] => destruct b eqn:Q end.
  - apply andb_prop in Q. destruct Q as [Q _]. apply andb_prop in Q. destruct Q as [_ Q]. apply Nat.ltb_lt in Q.
    destruct (find_inv _ _ _ v I Hv) as (u1 & f & -> & I1 & _ & C1 & R1 & X1).
    destruct (find_inv _ _ _ t I1 Ht) as (u2 & s & -> & I2 & _ & C2 & R2 & X2).
    destruct (Nat.eqb_spec f s) as [->|Ne].
    + eexists. split; [reflexivity|]. exists ps. cbn. split; [auto|lia].
    + assert (Lf : f < length G).
      { rewrite <- (inv_len _ _ _ I). eapply Root_lt; eauto. }
      assert (Ls : s < length G).
      { rewrite <- (inv_len _ _ _ I1). eapply Root_lt; eauto. }
      destruct (union_inv _ ps u2 f s I2 Lf Ls) as (u3 & b & Eu & I3 & Tb). rewrite Eu.
      eexists. split; [reflexivity|]. eexists. cbn. split; [exact I3|].
      rewrite (union_cnt _ ps u2 f s u3 b I2 Lf Ls Eu).
      assert (b = true) as ->; [|lia]. apply Tb. intro K.
      rewrite <- (conn_root_iff _ ps u2 f s f s I2 Lf Ls) in K; [auto| |].
      * apply X2, X1. eapply Root_idem; eauto.
      * apply X2. eapply Root_idem; eauto.
  - eexists. split; [reflexivity|]. exists ps. auto.
Qed.

Lemma ks_heavy_edges_ok G v : undirected G -> v < length G -> forall es st, (forall e, In e es -> In e (nth v G [])) ->
  heavy_ok (length G) st -> exists st', ks_heavy_edges G v st es = Some st' /\ heavy_ok (length G) st'.
Proof.
  intros U Hv. induction es as [|e es IH]; intros st He Ho; cbn [ks_heavy_edges]; [exists st; auto|].
  destruct (ks_heavy_edge_ok G v st e U Hv (He e (or_introl eq_refl)) Ho) as [st' [-> Ho']].
  apply IH; auto. intros e' H'. apply He. right. auto.
Qed.
Lemma ks_heavy_ok G : undirected G -> forall ns st, (forall v, In v ns -> v < length G) ->
  heavy_ok (length G) st -> exists st', ks_heavy G st ns = Some st' /\ heavy_ok (length G) st'.
Proof.
  intros U. induction ns as [|v ns IH]; intros st Hv Ho; cbn [ks_heavy]; [exists st; auto|].
  destruct (ks_heavy_edges_ok G v U (Hv v (or_introl eq_refl)) (nth v G []) st ltac:(auto) Ho) as [st' [-> Ho']].
  apply IH; auto. intros w Hw. apply Hv. right. auto.
Qed.

Lemma flat_edges_in G a b : undirected G -> In (a, b) (flat_edges G) -> a < length G /\ b < length G.
Proof.
  intros [U _] H. unfold flat_edges in H. apply in_flat_map in H. destruct H as [v [Hv H]].
  apply in_seq in Hv. apply in_map_iff in H. destruct H as [[t w] [E I]]. injection E as <- <-.
  split; [lia|]. apply (U v t w I).
Qed.

Definition krand_ok (kr : krand) : Prop :=
  (forall i p, perm_ord (k_ord kr i p)) /\ forall i p r q l, Permutation (k_nord kr i p r q l) l.

Lemma ks_recurse_ok kr cf G0 : krand_ok kr -> undirected G0 -> (total G0 < u64max)%N -> forall fuel path maps G iter c,
  hier G0 maps G -> 2 <= length G ->
  ks_recurse fuel kr cf path G iter = Some c -> real_cut G c.
Proof.
  intros [Ko Kn] U0 B. induction fuel as [|fuel IH]; intros path maps G iter c Hh Hn E;
    (destruct (hier_ok G0 maps G U0 Hh) as [U _]); cbn [ks_recurse] in E; [discriminate|].
  assert (Hst : exists u cur, (if length path =? 0 then Some (uf_init (length G), length G)
             else ks_heavy G (uf_init (length G), length G) (seq 0 (length G))) = Some (u, cur) /\ heavy_ok (length G) (u, cur)).
  { assert (H0 : heavy_ok (length G) (uf_init (length G), length G)).
    { exists []. cbn. split; [apply inv_init|auto]. }
    destruct (length path =? 0); [eexists _, _; split; [reflexivity|auto]|].
    destruct (ks_heavy_ok G U (seq 0 (length G)) (uf_init (length G), length G)) as [[u cur] [-> Ho]]; auto.
    - intros v Hv. apply in_seq in Hv. lia.
    - exists u, cur. auto. }
  destruct Hst as (u & cur & Q & ps & I & C & L). rewrite Q in E. cbn in I, C, L.
  destruct (ks_sample (flat_edges G) (ks_reduce cur) u (k_draws kr iter)) as [u'|] eqn:Es; [|discriminate].
  assert (Rd : ks_reduce cur <= cur - 2) by (unfold ks_reduce; lia).
  destruct (ks_sample_ok (flat_edges G) (length G)) with (3 := Es) (ps := ps) as [ps' [I' C']].
  { intros a b. apply flat_edges_in. auto. }
  { auto. }
  { lia. }
  destruct (from_uf_ok (k_ord kr iter path) G ps' u' (Ko _ _) U I') as [H [m [Ef [Lm [LH [Cn [Cl' [Ct' [UH _]]]]]]]]].
  rewrite Ef in E.
  assert (Hg : hier G ([] ++ [m]) H) by (eapply hier_snoc; eauto; constructor).
  assert (Hm : hier G0 (maps ++ [m]) H) by (eapply hier_snoc; eauto).
  assert (Back : forall x, real_cut H x -> real_cut G x).
  { intros x [S [P <-]]. destruct (hier_real G _ _ _ U Hg P) as [S0 [P0 E0]]. exists S0. auto. }
  destruct (50 <? length H).
  - destruct (ks_recurse fuel kr cf (false :: path) H iter) as [a|] eqn:Ea; [|discriminate].
    destruct (ks_recurse fuel kr cf (true :: path) H (iter + N.to_nat 9273)) as [b|] eqn:Eb; [|discriminate].
    injection E as <-. apply Back.
    destruct (N.min_spec a b) as [[_ ->]|[_ ->]]; [eapply IH with (3 := Ea)|eapply IH with (3 := Eb)]; eauto; lia.
  - destruct (noi_any cf (k_rnd kr iter path) (k_nord kr iter path) H (Kn _ _) UH ltac:(lia)) as [x [mk [En [[_ [P Ex]] _]]]].
    { apply (min_degree_lt G0 _ H U0 Hm); auto. lia. }
    rewrite En in E. injection E as <-. apply Back. eexists. split; [exact P|exact Ex].
Qed.

Theorem ks_ok kr cf optimal G c : krand_ok kr -> undirected G -> 2 <= length G -> (total G < u64max)%N ->
  ks_minimum_cut kr cf optimal G = Some c -> c = u64max /\ (u64max <= optimal)%N \/ real_cut G c.
Proof.
  intros K U Hn B. unfold ks_minimum_cut.
  assert (X : forall r i mc, mc = u64max \/ real_cut G mc -> ks_rounds r i kr cf optimal G mc = Some c ->
    (mc = u64max -> 0 < r) -> c = u64max /\ (u64max <= optimal)%N \/ real_cut G c).
  { induction r as [|r IH]; intros i mc M E R; cbn [ks_rounds] in E.
    - injection E as <-. destruct M as [->|M]; [specialize (R eq_refl); lia|auto].
    - destruct (N.ltb_spec optimal mc) as [L|L]; [|injection E as <-; destruct M as [->|M]; auto].
      destruct (ks_recurse (length G) kr cf [] G i) as [x|] eqn:Ex; [|discriminate].
      pose proof (ks_recurse_ok kr cf G K U B (length G) [] [] G i x (hier_nil G) Hn Ex) as Rx.
      assert (Lx : (x < u64max)%N). { destruct Rx as [S [P <-]]. pose proof (cut_total G S U). lia. }
      apply (IH (S i) (N.min mc x)); auto.
      + destruct (N.min_spec mc x) as [[_ ->]|[_ ->]]; auto.
      + lia. }
  intros E. eapply (X _ 0 u64max); eauto. intros _.
  destruct (length G) as [|[|n]] eqn:Q; [lia|lia|]. apply Nat.log2_up_pos. lia.
Qed.
