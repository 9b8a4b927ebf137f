(* P_Kernel2.v - safety of lowDegreeContraction under its guard. *)
From Verif Require Import SpecRel P_UnionFind P_Cut P_Mutable P_MutableIO P_PRTests P_Multi P_Kernel.

Section Low.
Context (G : mg) (ts : list nat) (MV : mvalid G)
        (GUARD : forall v t w r, nth v (m_rows G) [] = [(t, w, r)] -> ~ In v ts -> length (nth t (m_rows G) []) = 3 -> ~ In t ts).
Let n := m_n G.
Let R := m_rows G.
Let W := wt (adj R).
Let V : valid_rows R := proj1 MV.
Notation deg3 v := (length (nth v R []) = 3).

Definition J (ps : list (nat * nat)) (Rt : nat -> Prop) (v : nat) : Prop :=
  Rt v \/ exists e0 e1 h0 h1, e0 <> e1 /\ slot R v e0 = Some h0 /\ slot R v e1 = Some h1 /\ conn ps v (fst (fst h0)) /\ conn ps v (fst (fst h1)).

Record linv (ns : list nat) (ps : list (nat * nat)) (u : uf) (Rt : nat -> Prop) : Prop := {
  l_inv : inv n ps u;
  l_k : kinv n W ts ps Rt;
  l_un : forall v, In v ns -> length (nth v R []) <> 3 -> Rt v;
  l_J : forall v, deg3 v -> ~ In v ts -> J ps Rt v;
  l_eo : edges_only R ps }.

Lemma J_mono ps ps' (Rt Rt' : nat -> Prop) v : incl ps ps' -> (Rt v -> Rt' v) -> J ps Rt v -> J ps' Rt' v.
Proof.
  intros I H [X|(e0 & e1 & h0 & h1 & A & B & C & D & E)]; [left; auto|]. right. exists e0, e1, h0, h1.
  do 3 (split; [auto|]). split; eapply conn_mono; eauto.
Qed.

Lemma Sy : symm n W. Proof. apply W_symm. exact V. Qed.

(** moving a vertex of degree three together with its leaf *)
Lemma pair_move v tgt w rev f wl wo lg : nth v R [] = [(tgt, w, rev)] -> v < n -> tgt < n -> f v = f tgt -> f tgt <> f lg ->
  (wl <= att n W f tgt (f lg))%N -> (att n W f tgt (f tgt) <= w + wo)%N -> (wo <= wl)%N ->
  (mtcost n W (mv (mv f tgt (f lg)) v (f lg)) <= mtcost n W f)%N.
Proof.
  intros Ev Hv Ht Fv Fl A B C. pose proof (move_cost n W f tgt (f lg) Sy Ht) as M1.
  pose proof (move_cost n W (mv f tgt (f lg)) v (f lg) Sy Hv) as M2.
  assert (Nv : v <> tgt). { intro. subst tgt. destruct (V v 0 v w rev) as [_ [X _]]; [rewrite Ev; reflexivity|congruence]. }
  rewrite mv_neq in M2 by auto.
  assert (A1 : att n W (mv f tgt (f lg)) v (f lg) = w).
  { pose proof (att_row R V (mv f tgt (f lg)) v (f lg)) as X. rewrite Ev in X. cbn [sumN fst snd] in X. rewrite mv_eq, Nat.eqb_refl in X. unfold n, W, m_n. fold R. rewrite X. lia. }
  assert (A2 : att n W (mv f tgt (f lg)) v (f v) = 0%N).
  { pose proof (att_row R V (mv f tgt (f lg)) v (f v)) as X. rewrite Ev in X. cbn [sumN fst snd] in X. rewrite mv_eq in X. unfold n, W, m_n. fold R. rewrite X.
    destruct (Nat.eqb_spec (f lg) (f v)); [congruence|reflexivity]. }
  lia.
Qed.

Lemma low_node_ok v ns ps u Rt : v < n -> ~ In v ns -> linv (v :: ns) ps u Rt ->
  exists ps' u' Rt', low_node G ts u v = Some u' /\ linv ns ps' u' Rt'.
Proof.
  intros Hv Nv [I K U JJ EO]. unfold low_node. fold R.
  assert (SAME : linv ns ps u Rt) by (constructor; auto; intros x Hx; apply U; right; auto).
  destruct (isterm ts v) eqn:T; [exists ps, u, Rt; auto|]. apply isterm_out in T.
  destruct (nth v R []) as [|[[tgt w] rev] [|[[n2 e2] r2] [|h3 rest]]] eqn:Ev; [exists ps, u, Rt; auto| | |exists ps, u, Rt; auto].
  - (* degree 1 *)
    assert (SV : slot R v 0 = Some (tgt, w, rev)) by (unfold slot; rewrite Ev; reflexivity).
    destruct (V v 0 tgt w rev SV) as [Ht [Nt SR]]. change (length R) with n in Ht.
    assert (Rv : Rt v) by (apply U; [left; auto|rewrite Ev; cbn; lia]).
    destruct (union_inv n ps u v tgt I Hv Ht) as (u1 & b1 & -> & I1 & _).
    destruct (kinv_add n W ts ps Rt v tgt K Hv Ht) as (Rt1 & K1 & D1).
    { intros rho f Rr C NC F E N'. assert (rho = v) by (apply (k_uniq _ _ _ _ _ K); auto; apply conn_sym; auto). subst rho.
      exists (mv f v (f tgt)). split; [apply mv_separates; auto; apply F; auto|]. split; [|split; [apply mv_eq|intros r _ Nr; apply mv_neq; auto]].
      apply move_le; [apply Sy|auto|]. pose proof (att_row R V f v) as X. unfold n, W, m_n. fold R. rewrite !X, Ev. cbn [sumN fst snd].
      rewrite Nat.eqb_refl. destruct (f tgt =? f v); lia. }
    assert (Q1 : forall r, Rt r -> r <> v -> Rt1 r).
    { intros r Rr Nr. destruct D1 as [[_ D]|[_ (rho & Rrho & C & D)]]; apply D; auto. split; [auto|]. intros ->.
      apply Nr, (k_uniq _ _ _ _ _ K); auto. apply conn_sym. auto. }
    assert (C1 : conn (ps ++ [(v, tgt)]) v tgt) by (apply conn_pair, in_or_app; right; left; auto).
    assert (EO1 : edges_only R (ps ++ [(v, tgt)])) by (eapply edges_only_add; eauto).
    assert (I0 : incl ps (ps ++ [(v, tgt)])) by (apply incl_appl, incl_refl).
    destruct (Nat.eqb_spec (length (nth tgt R [])) 3) as [L3|L3].
    2:{ exists (ps ++ [(v, tgt)]), u1, Rt1. split; [reflexivity|]. constructor; auto.
        - intros x Hx Lx. apply Q1; [apply U; [right; auto|auto]|]. intros ->. contradiction.
        - intros x Lx Nx. apply (J_mono ps _ Rt); auto. intro. apply Q1; auto. intros ->. rewrite Ev in Lx. cbn in Lx. lia. }
    pose proof (GUARD v tgt w rev Ev T L3) as Tt.
    destruct (nth tgt R []) as [|h0 [|h1 [|h2 [|? ?]]]] eqn:Et; cbn in L3; try lia. clear L3.
    (* the two other edges *)
    set (i1 := if rev =? 0 then 1 else 0). set (i2 := if rev <=? 1 then 2 else 1).
    assert (RV : rev < 3).
    { apply (proj1 (nth_error_Some [h0; h1; h2] rev)). rewrite SR. discriminate. }
    assert (IX : i1 <> i2 /\ i1 <> rev /\ i2 <> rev /\ i1 < 3 /\ i2 < 3).
    { unfold i1, i2. destruct rev as [|[|[|rev]]]; cbn; lia. }
    assert (ALL : forall e, e < 3 -> e = rev \/ e = i1 \/ e = i2).
    { unfold i1, i2. intros e He. destruct rev as [|[|[|rev]]]; cbn; lia. }
    assert (ST : forall e, e < 3 -> exists h, slot R tgt e = Some h).
    { intros e He. unfold slot. rewrite Et. destruct e as [|[|[|e]]]; [eexists; reflexivity..|lia]. }
    assert (SUM : forall f b, att n W f tgt b = ((if Nat.eqb (f v) b then w else 0) +
       (match slot R tgt i1 with Some (t, x, _) => if Nat.eqb (f t) b then x else 0 | None => 0 end) +
       (match slot R tgt i2 with Some (t, x, _) => if Nat.eqb (f t) b then x else 0 | None => 0 end))%N).
    { intros f b. pose proof (att_row R V f tgt b) as X. unfold n, W, m_n. fold R. rewrite X, Et. unfold slot. rewrite Et. unfold i1, i2.
      destruct h0 as [[t0 x0] r0], h1 as [[t1 x1] r1], h2 as [[t2 x2] r2].
      destruct rev as [|[|[|rev]]]; [| | |lia]; cbn in SR; injection SR as -> -> ->; cbn [sumN fst snd Nat.eqb Nat.leb nth_error]; lia. }
    destruct (ST i1 ltac:(lia)) as [[[n1 x1] r1] S1]. destruct (ST i2 ltac:(lia)) as [[[n2 x2] r2] S2]. rewrite S1, S2 in *.
    destruct (V tgt i1 n1 x1 r1 S1) as [Hn1 _]. destruct (V tgt i2 n2 x2 r2 S2) as [Hn2 _]. change (length R) with n in Hn1, Hn2.
    set (lg := if (x2 <=? x1)%N then n1 else n2).
    assert (Hl : lg < n) by (unfold lg; destruct (x2 <=? x1)%N; auto).
    destruct (union_inv n _ u1 tgt lg I1 Ht Hl) as (u2 & b2 & -> & I2 & _).
    set (ps1 := ps ++ [(v, tgt)]) in *.
    (* the root of the class of tgt *)
    assert (RHO : forall rho, Rt1 rho -> conn ps1 tgt rho -> ~ conn ps1 tgt lg -> rho = tgt \/ rho = v).
    { intros rho Rr C NC. destruct (JJ tgt ltac:(rewrite Et; reflexivity) Tt) as [Rtt|(e0 & e1 & g0 & g1 & Ne & T0 & T1 & C0 & C1')].
      - left. apply (k_uniq _ _ _ _ _ K1); auto. apply conn_sym. auto.
      - assert (e0 < 3). { apply (proj1 (nth_error_Some [h0; h1; h2] e0)). unfold slot in T0. rewrite Et in T0. rewrite T0. discriminate. }
        assert (e1 < 3). { apply (proj1 (nth_error_Some [h0; h1; h2] e1)). unfold slot in T1. rewrite Et in T1. rewrite T1. discriminate. }
        assert (X : conn ps tgt v).
        { destruct (ALL e0) as [Q|[Q|Q]]; [auto| | |].
          - subst e0. unfold slot in T0. rewrite <- Et in SR. rewrite SR in T0. injection T0 as <-. exact C0.
          - destruct (ALL e1) as [Q'|[Q'|Q']]; [auto| | |].
            + subst e1. unfold slot in T1. rewrite <- Et in SR. rewrite SR in T1. injection T1 as <-. exact C1'.
            + congruence.
            + subst e0 e1. rewrite S1 in T0. rewrite S2 in T1. injection T0 as <-. injection T1 as <-. exfalso. apply NC. unfold lg. cbn in C0, C1'.
              destruct (x2 <=? x1)%N; eapply conn_mono; eauto.
          - destruct (ALL e1) as [Q'|[Q'|Q']]; [auto| | |].
            + subst e1. unfold slot in T1. rewrite <- Et in SR. rewrite SR in T1. injection T1 as <-. exact C1'.
            + subst e0 e1. rewrite S2 in T0. rewrite S1 in T1. injection T0 as <-. injection T1 as <-. exfalso. apply NC. unfold lg. cbn in C0, C1'.
              destruct (x2 <=? x1)%N; eapply conn_mono; eauto.
            + congruence. }
        right. destruct D1 as [[_ D]|[NC' _]]; [|exfalso; apply NC', conn_sym; auto].
        apply (k_uniq _ _ _ _ _ K1); [auto|apply D; auto|]. eapply conn_trans; [apply conn_sym; exact C|apply conn_sym; auto]. }
    destruct (kinv_add n W ts ps1 Rt1 tgt lg K1 Ht Hl) as (Rt2 & K2 & D2).
    { intros rho f Rr C NC F E N'. exists (mv (mv f tgt (f lg)) v (f lg)). split; [|split; [|split]].
      - apply mv_separates; auto; [|apply F; auto]. apply mv_separates; auto. apply F; auto.
      - assert (Fv : f v = f tgt) by (apply E; auto).
        apply (pair_move v tgt w rev f (if (x2 <=? x1)%N then x1 else x2) (if (x2 <=? x1)%N then x2 else x1) lg); auto.
        + rewrite SUM. unfold lg. destruct (x2 <=? x1)%N; rewrite Nat.eqb_refl; lia.
        + rewrite SUM, Fv, Nat.eqb_refl. unfold lg in N'. destruct (x2 <=? x1)%N.
          * destruct (Nat.eqb_spec (f n1) (f tgt)); [congruence|]. destruct (f n2 =? f tgt); lia.
          * destruct (Nat.eqb_spec (f n2) (f tgt)); [congruence|]. destruct (f n1 =? f tgt); lia.
        + destruct (N.leb_spec x2 x1); lia.
      - destruct (RHO rho Rr C NC) as [-> | ->]; [rewrite mv_neq by auto; apply mv_eq|apply mv_eq].
      - intros r R' Nr. assert (CV : conn ps1 v rho) by (eapply conn_trans; [exact C1|auto]).
        rewrite !mv_neq; [auto| |]; intros ->; apply Nr; apply (k_uniq _ _ _ _ _ K1); auto. }
    assert (Q2 : forall r, Rt1 r -> r <> v -> r <> tgt -> Rt2 r).
    { intros r Rr Nr1 Nr2. destruct D2 as [[_ D]|[NC (rho & Rrho & C & D)]]; apply D; auto. split; [auto|]. intros ->.
      destruct (RHO rho Rrho C NC); congruence. }
    exists (ps1 ++ [(tgt, lg)]), u2, Rt2. split; [reflexivity|].
    assert (EO2 : edges_only R (ps1 ++ [(tgt, lg)])) by (unfold lg; destruct (x2 <=? x1)%N; eapply edges_only_add; eauto).
    assert (I3 : incl ps (ps1 ++ [(tgt, lg)])) by (apply incl_appl; auto).
    constructor; auto.
    + intros x Hx Lx. apply Q2; [apply Q1; [apply U; [right; auto|auto]|intros ->; contradiction]|intros ->; contradiction|].
      intros ->. rewrite Et in Lx. cbn in Lx. lia.
    + intros x Lx Nx. destruct (Nat.eq_dec x tgt) as [->|Nxt].
      * right. exists rev, (if (x2 <=? x1)%N then i1 else i2), (v, w, 0), (if (x2 <=? x1)%N then (n1, x1, r1) else (n2, x2, r2)).
        split; [destruct (x2 <=? x1)%N; lia|]. split; [unfold slot; rewrite Et; exact SR|]. split; [destruct (x2 <=? x1)%N; auto|]. split.
        -- apply conn_sym. eapply conn_mono; [|exact C1]. apply incl_appl, incl_refl.
        -- replace (fst (fst (if (x2 <=? x1)%N then (n1, x1, r1) else (n2, x2, r2)))) with lg by (unfold lg; destruct (x2 <=? x1)%N; reflexivity).
           apply conn_pair, in_or_app. right. left. reflexivity.
      * apply (J_mono ps _ Rt); auto. intro Rx. apply Q2; auto; [apply Q1; auto|]; intros ->; rewrite Ev in Lx; cbn in Lx; lia.
  - (* degree 2 *)
    assert (S1 : slot R v 0 = Some (tgt, w, rev)) by (unfold slot; rewrite Ev; reflexivity).
    assert (S2 : slot R v 1 = Some (n2, e2, r2)) by (unfold slot; rewrite Ev; reflexivity).
    destruct (V v 0 tgt w rev S1) as [Ht _]. destruct (V v 1 n2 e2 r2 S2) as [Hn2 _]. change (length R) with n in Ht, Hn2.
    assert (Rv : Rt v) by (apply U; [left; auto|rewrite Ev; cbn; lia]).
    set (lg := if (e2 <=? w)%N then tgt else n2). assert (Hl : lg < n) by (unfold lg; destruct (e2 <=? w)%N; auto).
    destruct (union_inv n ps u v lg I Hv Hl) as (u1 & b1 & -> & I1 & _).
    destruct (kinv_move n W ts ps Rt v lg K Sy Hv Hl Rv T) as (Rt1 & K1 & Q1).
    { intros f F N'. pose proof (att_row R V f v) as X. unfold n, W, m_n. fold R. rewrite !X, Ev. cbn [sumN fst snd].
      unfold lg in *. destruct (N.leb_spec e2 w); rewrite Nat.eqb_refl.
      - destruct (Nat.eqb_spec (f tgt) (f v)); [congruence|]. destruct (f n2 =? f v), (f n2 =? f tgt); lia.
      - destruct (Nat.eqb_spec (f n2) (f v)); [congruence|]. destruct (f tgt =? f v), (f tgt =? f n2); lia. }
    assert (EO1 : edges_only R (ps ++ [(v, lg)])) by (unfold lg; destruct (e2 <=? w)%N; eapply edges_only_add; eauto).
    exists (ps ++ [(v, lg)]), u1, Rt1. split; [reflexivity|]. constructor; auto.
    + intros x Hx Lx. apply Q1; [apply U; [right; auto|auto]|]. intros ->. contradiction.
    + intros x Lx Nx. apply (J_mono ps _ Rt); auto; [apply incl_appl, incl_refl|]. intro. apply Q1; auto. intros ->. rewrite Ev in Lx. cbn in Lx. lia.
Qed.

Lemma low_nodes_ok : forall ns ps u Rt, NoDup ns -> (forall v, In v ns -> v < n) -> linv ns ps u Rt ->
  exists ps' u' Rt', low_nodes G ts ns u = Some u' /\ linv [] ps' u' Rt'.
Proof.
  induction ns as [|v ns IH]; intros ps u Rt ND Hn L; [exists ps, u, Rt; auto|]. inversion ND as [|? ? Nv ND']. subst.
  cbn [low_nodes]. destruct (low_node_ok v ns ps u Rt (Hn v (or_introl eq_refl)) Nv L) as (ps1 & u1 & Rt1 & -> & L1).
  apply (IH ps1 u1 Rt1); auto. intros x Hx. apply Hn. right. auto.
Qed.

Theorem low_degree_ok : exists u ps, low_degree G ts = Some u /\ inv n ps u /\ safe_pairs n W ts (conn ps) /\ edges_only R ps.
Proof.
  unfold low_degree. destruct (low_nodes_ok (seq 0 n) [] (uf_init n) (fun _ => True)) as (ps & u & Rt & E & [I K _ _ EO]).
  - apply seq_NoDup.
  - intros v H. apply in_seq in H. lia.
  - constructor; [apply inv_init|apply kinv_init|auto| |]; [intros; left; auto|intros ? ? []].
  - exists u, ps. split; [exact E|]. split; [auto|]. split; [|auto]. eapply kinv_safe; eauto.
Qed.
End Low.
