(* P_ParExact.v - the exact parallel minimum cut: always a real cut, the minimum one if the reads agree. *)
From Verif Require Import SpecRel M_UnionFind P_UnionFind SpecCut SpecHier P_Cut M_ParExact P_Contract P_Hier P_Capforest P_Noi P_NoiAny P_ParCapforest P_ParCapforest2.

Lemma replay_ok n : forall ps qs u, inv n qs u -> (forall x y, In (x, y) ps -> x < n /\ y < n) ->
  exists u', replay u ps = Some u' /\ inv n (qs ++ ps) u'.
Proof.
  induction ps as [|[x y] ps IH]; intros qs u I H; cbn [replay].
  - exists u. rewrite app_nil_r. auto.
  - destruct (H x y) as [Hx Hy]; [left; auto|].
    destruct (union_inv n qs u x y I Hx Hy) as [u1 [t [-> [I1 _]]]].
    destruct (IH (qs ++ [(x, y)]) u1 I1) as [u' [E I']]; [intros; apply H; right; auto|].
    exists u'. split; [auto|]. rewrite <- app_assoc in I'. exact I'.
Qed.

Lemma nroots_le p : nroots p <= length p.
Proof.
  unfold nroots. generalize (seq 0 (length p)), (seq_length (length p) 0). intros l <-.
  induction l as [|x l IH]; [auto|]. simpl. destruct (nth x p 0 =? x); simpl; lia.
Qed.

(** every thread takes enough steps *)
Definition fair (starts : nat -> list nat) (sched : nat -> graph -> list nat) : Prop := forall r H i, i < length (starts r) ->
  1 + list_sum (map (fun es => 4 + 3 * length es) H) <= count_occ Nat.eq_dec (sched r H) i.

Lemma finishedb_ok p : finished p -> finishedb p = true.
Proof. intro F. apply forallb_forall. intros s Hs. rewrite (F s Hs). reflexivity. Qed.

Lemma round_ok cf rnd starts sched G c : undirected G -> 0 < length G -> (c + 1 < 2147483648)%N -> (0 < c)%N ->
  (forall v, v < length G -> (c <= deg G v)%N) -> (key_limit cf G c < 4294967296)%N ->
  (forall i, i < length starts -> 1 + list_sum (map (fun es => 4 + 3 * length es) G) <= count_occ Nat.eq_dec sched i) ->
  exists p u ps, par_round cf rnd starts sched G c = Some (p, u) /\ inv (length G) ps u /\ cnt u < length G /\
    (agree (p_tr p) -> forall x y, In (x, y) ps -> conn_ge (length G) (wt G) c x y).
Proof.
  intros U Hn H32 Pc Hd Hk F. unfold par_round.
  assert (HS : forall v, In v (map (fun r => r mod length G) starts) -> v < length G).
  { intros v Hv. apply in_map_iff in Hv. destruct Hv as [r [<- _]]. apply Nat.mod_upper_bound. lia. }
  destruct (run_facts false G c _ sched U H32 HS) as [p [E [TR Fi]]]. rewrite E.
  rewrite finishedb_ok by (apply Fi; rewrite map_length; exact F).
  destruct (replay_ok (length G) (unions_of p) [] (uf_init (length G)) (inv_init _)) as [u [-> Iu]].
  { intros x y H. apply unions_In in H. destruct H as [i H]. exact (TR i x y H). }
  cbn [app] in Iu.
  destruct (Nat.eqb_spec (cnt u) (length G)) as [Ec|Ec].
  - destruct (capforest_good cf rnd G c U Hn Hk) as [u2 [ps [-> [I2 [P2 Pr]]]]]. exists p, u2, ps. split; [reflexivity|]. split; [auto|].
    split; [apply Pr; auto|auto].
  - exists p, u, (unions_of p). split; [reflexivity|]. split; [auto|]. split.
    + pose proof (inv_cnt _ _ _ Iu) as C. pose proof (nroots_le (parent u)) as L. rewrite (inv_len _ _ _ Iu) in L. lia.
    + intros AG x y H. unfold par_run in E. destruct (init_good G c H32 _ HS) as [l [El [_ Il]]]. rewrite El in E.
      apply (good_conn G c (p_th p) p); [|apply conn_pair; exact H]. eapply (par_good G c U H32); eauto.
      split; [exact Il|]. intros i a b [].
Qed.

Lemma one_class n G ps u ord x y : perm_ord ord -> undirected G -> n = length G -> inv n ps u -> cnt u <= 1 -> x < n -> y < n -> conn ps x y.
Proof.
  intros Po U -> I C Hx Hy. destruct (from_uf_ok ord G ps u Po U I) as [H [m [_ [_ [LH [Cn [[Cl _] _]]]]]]].
  apply Cn; auto. pose proof (Cl x Hx). pose proof (Cl y Hy). lia.
Qed.

Record par_inv (cf : cfg) (ag : Prop) (G0 : graph) (maps : list (list nat)) (G : graph) (c : N) (marks : list bool) : Prop := {
  pv_h : hier G0 maps G;
  pv_n : 0 < length G;
  pv_m : marks_ok G0 marks c;
  pv_s : ag -> forall S, proper (length G0) S -> (cutw (length G0) (wt G0) S < c)%N ->
           exists S', proper (length G) S' /\ cutw (length G) (wt G) S' = cutw (length G0) (wt G0) S;
  pv_d : 2 <= length G -> forall v, v < length G -> (c <= deg G v)%N;
  pv_c : (c <= u64max)%N;
  pv_k : (c + 1 < 2147483648)%N }.

Lemma par_loop_ok cf rnd starts sched ord G0 : (forall r p l, Permutation (ord r p l) l) -> undirected G0 -> fair starts sched ->
  (cfg_nolimit cf = true -> (total G0 < 4294967296)%N) ->
  forall fuel ag maps G c marks, par_inv cf ag G0 maps G c marks -> length G <= fuel ->
  exists c' marks' l, par_exact_loop fuel cf rnd starts sched ord maps G c marks = Some (c', marks', l) /\
    marks_ok G0 marks' c' /\ (c' <= c)%N /\ (ag -> (forall p, In p l -> agree (p_tr p)) -> mincut_of G0 c').
Proof.
  intros Po U Fa Tot. induction fuel as [|fuel IH]; intros ag maps G c marks I Hf; [destruct I; lia|].
  destruct I as [Hh Hn Hm Hs Hd Hc Hk].
  destruct (hier_ok G0 maps G U Hh) as [UG [Cl Ct]].
  cbn [par_exact_loop]. destruct ((2 <? length G) && (0 <? c)%N) eqn:Go.
  - apply andb_prop in Go. destruct Go as [G2 Pc]. apply Nat.ltb_lt in G2. apply N.ltb_lt in Pc.
    assert (K : (key_limit cf G c < 4294967296)%N).
    { unfold key_limit. destruct (cfg_nolimit cf) eqn:NL; [|lia].
      destruct (max_degree_in G) as [->|[v [Hv ->]]]; [lia|]. pose proof (hier_deg_total G0 maps G v U Hh Hv). specialize (Tot eq_refl). lia. }
    destruct (round_ok cf (rnd (S fuel)) (starts (S fuel)) (sched (S fuel) G) G c UG ltac:(lia) Hk Pc (Hd ltac:(lia)) K (Fa (S fuel) G))
      as [p [u [ps [-> [Iu [Pr Pp]]]]]].
    destruct (Nat.ltb_spec 1 (cnt u)) as [L1|L1].
    + destruct (from_uf_ok (ord (S fuel)) G ps u (Po (S fuel)) UG Iu) as [H [m [-> [Lm [LH [Cn [Cl' [Ct' [UH _]]]]]]]]].
      destruct (update_cut (maps ++ [m]) H c marks) as [c' marks'] eqn:E.
      assert (Hh' : hier G0 (maps ++ [m]) H) by (eapply hier_snoc; eauto).
      destruct (update_cut_ok G0 (maps ++ [m]) H c marks c' marks' U Hh' Hc Hm E) as [M' [Le D']].
      destruct (IH (ag /\ agree (p_tr p)) (maps ++ [m]) H c' marks') as [c2 [marks2 [l [E2 [M2 [L2 X2]]]]]]; [|lia|].
      * constructor; auto.
        -- lia.
        -- intros [Ag Ap] S PS L. destruct (Hs Ag S PS ltac:(lia)) as [S' [PS' E']].
           destruct (contraction_keeps _ _ _ _ _ c Cl' Ct') with (S := S') as [S2 [PS2 E2]]; auto.
           ++ intros x y Hx Hy Q. apply (conn_conn_ge _ _ _ ps); auto. apply Cn; auto.
           ++ lia.
           ++ exists S2. split; [auto|lia].
        -- lia.
        -- lia.
      * rewrite E2. exists c2, marks2, (p :: l). split; [reflexivity|]. split; [auto|]. split; [lia|].
        intros Ag Al. apply X2; [split; [auto|apply Al; left; auto]|]. intros q Hq. apply Al. right. auto.
    + exists c, marks, [p]. split; [reflexivity|]. split; [auto|]. split; [lia|]. intros Ag Al.
      destruct Hm as [M1 [M2 M3]]. split; [exists (marked marks); auto|].
      intros S PS. destruct (N.le_gt_cases c (cutw (length G0) (wt G0) S)) as [Le|L]; [auto|]. exfalso.
      destruct (Hs Ag S PS L) as [S' [[[a [Ha Ea]] [b [Hb Eb]]] E']].
      assert (C : conn_ge (length G) (wt G) c a b).
      { apply (conn_conn_ge _ _ _ ps); [apply Pp, Al; left; auto|].
        apply (one_class (length G) G ps u (ord 0) a b (Po 0)); auto. }
      specialize (C S' ltac:(congruence)). lia.
  - exists c, marks, []. split; [auto|]. split; [auto|]. split; [lia|]. intros Ag _.
    destruct Hm as [M1 [M2 M3]]. split; [exists (marked marks); auto|].
    intros S PS. destruct (N.le_gt_cases c (cutw (length G0) (wt G0) S)) as [Le|L]; [auto|]. exfalso.
    apply andb_false_iff in Go. destruct Go as [Go|Go]; [|apply N.ltb_ge in Go; lia]. apply Nat.ltb_ge in Go.
    destruct (Hs Ag S PS L) as [S' [[[a [Ha Ea]] [b [Hb Eb]]] E']].
    assert (a <> b) by congruence. assert (L2 : length G = 2) by lia.
    specialize (Hd ltac:(lia) a Ha). rewrite deg_cut in Hd by auto.
    assert (cutw (length G) (wt G) S' = cutw (length G) (wt G) (fun x => x =? a)).
    { apply cutw_ext. intros x Hx. destruct (Nat.eqb_spec x a) as [->|Nx]; [auto|]. assert (x = b) by lia. congruence. }
    lia.
Qed.
