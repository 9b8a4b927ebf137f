(* P_Noi.v - exactness of the NOI minimum cut algorithm. *)
From Verif Require Import SpecRel M_UnionFind P_UnionFind SpecCut SpecHier P_Cut M_Noi P_Contract P_Hier P_Capforest.

(** the queue keys of this graph fit the 32-bit key type *)
Definition fits (cf : cfg) (G : graph) : Prop :=
  if cfg_nolimit cf then (total G < 4294967296)%N else (min_degree G < 4294967296)%N.

Lemma capforest_good cf rnd G c : undirected G -> 0 < length G ->
  (key_limit cf G c < 4294967296)%N ->
  exists u ps, capforest cf rnd G c = Some u /\ inv (length G) ps u /\
    (forall x y, In (x, y) ps -> conn_ge (length G) (wt G) c x y) /\
    ((0 < c)%N -> (forall v, v < length G -> (c <= deg G v)%N) -> cnt u < length G).
Proof.
  intros U Hn K.
  destruct (capforest_ok cf G c (N.to_nat (key_limit cf G c)) U) with (rnd := rnd) as [u [ps [E [I [P Pr]]]]].
  - intros v Hv. rewrite N2Nat.id. unfold keyof, key_limit. destruct (cfg_nolimit cf); [apply max_degree_ok; auto|lia].
  - rewrite N2Nat.id. auto.
  - auto.
  - reflexivity.
  - exists u, ps. split; [auto|]. split; [auto|]. split; [auto|]. intros Pc Hd. destruct (Pr Pc Hd) as [x [y [N H]]].
    destruct (inv_pairs _ _ _ I x y H) as [Hx Hy]. apply (cnt_lt _ ps u x y I Hx Hy N). apply conn_pair. auto.
Qed.

Record noi_inv (cf : cfg) (G0 : graph) (maps : list (list nat)) (G : graph) (c : N) (marks : list bool) : Prop := {
  nv_h : hier G0 maps G;
  nv_n : 0 < length G;
  nv_m : marks_ok G0 marks c;
  nv_s : forall S, proper (length G0) S -> (cutw (length G0) (wt G0) S < c)%N ->
           exists S', proper (length G) S' /\ cutw (length G) (wt G) S' = cutw (length G0) (wt G0) S;
  nv_d : 2 <= length G -> forall v, v < length G -> (c <= deg G v)%N;
  nv_c : (c <= u64max)%N;
  nv_k : cfg_nolimit cf = false -> (c < 4294967296)%N }.

Lemma noi_loop_ok cf rnd ord G0 : (forall r p l, Permutation (ord r p l) l) -> undirected G0 ->
  (cfg_nolimit cf = true -> (total G0 < 4294967296)%N) ->
  forall fuel maps G c marks, noi_inv cf G0 maps G c marks -> length G <= fuel ->
  exists c' marks', noi_loop fuel cf rnd ord maps G c marks = Some (c', marks') /\
    marks_ok G0 marks' c' /\ mincut_of G0 c'.
Proof.
  intros Po U Tot. induction fuel as [|fuel IH]; intros maps G c marks I Hf; [destruct I; lia|].
  destruct I as [Hh Hn Hm Hs Hd Hc Hk].
  destruct (hier_ok G0 maps G U Hh) as [UG [Cl Ct]].
  cbn [noi_loop]. destruct ((2 <? length G) && (0 <? c)%N) eqn:Go.
  - apply andb_prop in Go. destruct Go as [G2 Pc]. apply Nat.ltb_lt in G2. apply N.ltb_lt in Pc.
    assert (K : (key_limit cf G c < 4294967296)%N).
    { unfold key_limit. destruct (cfg_nolimit cf) eqn:NL; [|auto].
      destruct (max_degree_in G) as [->|[v [Hv ->]]]; [lia|]. pose proof (hier_deg_total G0 maps G v U Hh Hv). specialize (Tot eq_refl). lia. }
    destruct (capforest_good cf (rnd (S fuel)) G c UG ltac:(lia) K) as [u [ps [-> [Iu [Pp Pr]]]]].
    specialize (Pr Pc (Hd ltac:(lia))).
    destruct (from_uf_ok (ord (S fuel)) G ps u (Po (S fuel)) UG Iu) as [H [m [-> [Lm [LH [Cn [Cl' [Ct' [UH _]]]]]]]]].
    destruct (update_cut (maps ++ [m]) H c marks) as [c' marks'] eqn:E.
    assert (Hh' : hier G0 (maps ++ [m]) H) by (eapply hier_snoc; eauto).
    destruct (update_cut_ok G0 (maps ++ [m]) H c marks c' marks' U Hh' Hc Hm E) as [M' [Le D']].
    apply IH; [|lia]. constructor; auto.
    + rewrite LH. apply (cnt_pos (length G) ps u Iu). lia.
    + intros S PS L. destruct (Hs S PS ltac:(lia)) as [S' [PS' E']].
      destruct (contraction_keeps _ _ _ _ _ c Cl' Ct') with (S := S') as [S2 [PS2 E2]]; auto.
      * intros x y Hx Hy Q. apply (conn_conn_ge _ _ _ ps); auto. apply Cn; auto.
      * lia.
      * exists S2. split; [auto|lia].
    + lia.
    + intro NL. specialize (Hk NL). lia.
  - exists c, marks. split; [auto|]. split; [auto|].
    destruct Hm as [M1 [M2 M3]]. split; [exists (marked marks); auto|].
    intros S PS. destruct (N.le_gt_cases c (cutw (length G0) (wt G0) S)) as [Le|L]; [auto|]. exfalso.
    apply andb_false_iff in Go. destruct Go as [Go|Go]; [|apply N.ltb_ge in Go; lia]. apply Nat.ltb_ge in Go.
    destruct (Hs S PS L) as [S' [[[a [Ha Ea]] [b [Hb Eb]]] E']].
    assert (a <> b) by congruence. assert (L2 : length G = 2) by lia.
    specialize (Hd ltac:(lia) a Ha). rewrite deg_cut in Hd by auto.
    assert (cutw (length G) (wt G) S' = cutw (length G) (wt G) (fun x => x =? a)).
    { apply cutw_ext. intros x Hx. destruct (Nat.eqb_spec x a) as [->|Nx]; [auto|]. assert (x = b) by lia. congruence. }
    lia.
Qed.

Theorem noi_ok cf rnd ord G : (forall r p l, Permutation (ord r p l) l) -> undirected G -> 2 <= length G -> fits cf G ->
  exists c marks, noi cf rnd ord G = Some (c, marks) /\ marks_ok G marks c /\ mincut_of G c.
Proof.
  intros Po U Hn F. unfold noi.
  assert (MD : (min_degree G < 4294967296)%N).
  { unfold fits in F. destruct (cfg_nolimit cf); [|auto].
    destruct (min_degree_ok G) as [_ [A _]]. specialize (A 0 ltac:(lia)). pose proof (hier_deg_total G [] G 0 U (hier_nil G) ltac:(lia)). lia. }
  apply noi_loop_ok; auto.
  - unfold fits in F. destruct (cfg_nolimit cf); [auto|discriminate].
  - constructor; auto.
    + constructor.
    + lia.
    + apply initial_marks_ok; auto. unfold u64max. lia.
    + intros S PS L. exists S. auto.
    + intros _ v Hv. apply min_degree_ok. auto.
    + apply min_degree_ok.
Qed.
