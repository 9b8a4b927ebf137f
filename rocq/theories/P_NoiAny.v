(* P_NoiAny.v - NOI for weights of any size: it terminates within n rounds and reports a real cut. *)
From Verif Require Import SpecRel M_UnionFind P_UnionFind SpecCut SpecHier P_Cut M_Noi P_Contract P_Hier P_Capforest P_CapforestW P_Noi.

Lemma capforest_any cf rnd G c : undirected G -> 0 < length G ->
  exists u ps, capforest cf rnd G c = Some u /\ inv (length G) ps u /\
    ((0 < c)%N -> (forall v, v < length G -> (c <= deg G v)%N) -> cnt u < length G).
Proof.
  intros U Hn.
  destruct (capforest_ok_w cf G c (N.to_nat (key_limit cf G c)) U) with (rnd := rnd) as [u [ps [E [I Pr]]]].
  - intros v Hv. rewrite N2Nat.id. unfold keyof, key_limit. destruct (cfg_nolimit cf); [apply max_degree_ok; auto|lia].
  - auto.
  - reflexivity.
  - exists u, ps. split; [auto|]. split; [auto|]. intros Pc Hd. destruct (Pr Pc Hd) as [x [y [N H]]].
    destruct (inv_pairs _ _ _ I x y H) as [Hx Hy]. apply (cnt_lt _ ps u x y I Hx Hy N). apply conn_pair. auto.
Qed.

Record any_inv (G0 : graph) (maps : list (list nat)) (G : graph) (c : N) (marks : list bool) : Prop := {
  an_h : hier G0 maps G;
  an_n : 0 < length G;
  an_m : marks_ok G0 marks c;
  an_d : 2 <= length G -> forall v, v < length G -> (c <= deg G v)%N;
  an_c : (c <= u64max)%N }.

Lemma noi_loop_any cf rnd ord G0 : (forall r p l, Permutation (ord r p l) l) -> undirected G0 ->
  forall fuel maps G c marks, any_inv G0 maps G c marks -> length G <= fuel ->
  exists c' marks', noi_loop fuel cf rnd ord maps G c marks = Some (c', marks') /\ marks_ok G0 marks' c' /\ (c' <= c)%N.
Proof.
  intros Po U. induction fuel as [|fuel IH]; intros maps G c marks I Hf; [destruct I; lia|].
  destruct I as [Hh Hn Hm Hd Hc].
  destruct (hier_ok G0 maps G U Hh) as [UG [Cl Ct]].
  cbn [noi_loop]. destruct ((2 <? length G) && (0 <? c)%N) eqn:Go.
  - apply andb_prop in Go. destruct Go as [G2 Pc]. apply Nat.ltb_lt in G2. apply N.ltb_lt in Pc.
    destruct (capforest_any cf (rnd (S fuel)) G c UG ltac:(lia)) as [u [ps [-> [Iu Pr]]]].
    specialize (Pr Pc (Hd ltac:(lia))).
    destruct (from_uf_ok (ord (S fuel)) G ps u (Po (S fuel)) UG Iu) as [H [m [-> [Lm [LH [Cn [Cl' [Ct' [UH _]]]]]]]]].
    destruct (update_cut (maps ++ [m]) H c marks) as [c' marks'] eqn:E.
    assert (Hh' : hier G0 (maps ++ [m]) H) by (eapply hier_snoc; eauto).
    destruct (update_cut_ok G0 (maps ++ [m]) H c marks c' marks' U Hh' Hc Hm E) as [M' [Le D']].
    destruct (IH (maps ++ [m]) H c' marks') as [c2 [marks2 [E2 [M2 L2]]]]; [|lia|exists c2, marks2; split; [auto|]; split; [auto|lia]].
    constructor; auto.
    + rewrite LH. apply (cnt_pos (length G) ps u Iu). lia.
    + lia.
  - exists c, marks. split; [auto|]. split; [auto|lia].
Qed.

Theorem noi_any cf rnd ord G : (forall r p l, Permutation (ord r p l) l) -> undirected G -> 2 <= length G ->
  (min_degree G < u64max)%N ->
  exists c marks, noi cf rnd ord G = Some (c, marks) /\ marks_ok G marks c /\ (c <= min_degree G)%N.
Proof.
  intros Po U Hn B. unfold noi. apply noi_loop_any; auto. constructor; auto.
  - constructor.
  - lia.
  - apply initial_marks_ok; auto.
  - intros _ v Hv. apply min_degree_ok. auto.
  - lia.
Qed.
