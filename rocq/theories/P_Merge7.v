(* P_Merge7.v - proofs about mergeGraphs, part 7: no empty vertex of two junctions keeps a tree edge. *)
From Verif Require Import SpecCut SpecDyn SpecMutable M_Mutable P_Mutable P_Cut P_Crossing P_LocalSearch P_LocalSearch2 P_AllMincuts P_MutableIO P_IsoFlow2 M_Branch P_ContractStd P_ContractStd2 M_StCactus M_Merge P_StCactus3 P_StCactus7 P_StCactus8 P_StCactus9 P_Merge P_Merge2 P_Merge3 P_Merge4 P_Merge5 P_Merge6.

(** an empty vertex with two junctions has no edge of weight c *)
Definition lean_at (n : nat) (c : N) (M : mg) (v : nat) : Prop :=
  (forall x, x < n -> nth x (m_pos M) 0 <> v) -> gcut M (fun x => x =? v) = (2 * c)%N -> forall t, t < m_n M -> t <> v -> wt (adj (m_rows M)) v t <> c.
Definition lean (n : nat) (c : N) (M : mg) : Prop := forall v, v < m_n M -> lean_at n c M v.

Lemma btw_single k (W : wfun) a b : a < k -> b < k -> btw k W (fun x => x =? a) (fun x => x =? b) = W a b.
Proof.
  intros Ha Hb. unfold btw. rewrite <- (bsum_single k (fun x => W x b) a Ha). apply bsum_ext. intros u Hu. destruct (Nat.eqb_spec u a) as [->|]; [|apply bsum_zero; reflexivity]. cbn [andb]. rewrite <- (bsum_single k (fun x => W a x) b Hb) at 1. reflexivity.
Qed.
(** the weight of an edge from three cuts *)
Lemma pair_cut k (W : wfun) a b : symm k W -> a < k -> b < k -> a <> b ->
  (cutw k W (fun x => Nat.eqb x a || Nat.eqb x b) + 2 * W a b = cutw k W (fun x => Nat.eqb x a) + cutw k W (fun x => Nat.eqb x b))%N.
Proof.
  intros Sy Ha Hb Nab. rewrite <- (btw_single k W a b Ha Hb). apply (union_cut k W 1%N); auto; [lia|intros u v _ _ _; exists (2 * W u v)%N; lia|]. intros u Hu E1 E2. apply Nat.eqb_eq in E1, E2. congruence.
Qed.

Section Lean.
Context (n : nat) (c : N) (Pc : (0 < c)%N).

Section Glue.
Context (F1 F2 : (nat -> bool) -> Prop) (G1 G2 : mg) (R1 : rep n c F1 G1) (R2 : rep n c F2 G2).
Context (v1 v2 : nat) (Hv1 : v1 < m_n G1) (Hv2 : v2 < m_n G2) (M : mg) (Gd : glued G1 G2 v1 v2 n M) (RM : rep n c (Fboth F1 F2) M).
Notation n1 := (m_n G1). Notation n2 := (m_n G2). Notation idn := (mg_id n1 v1 v2).
Context (Out : forall x, x < n -> nth x (m_pos G1) 0 <> v1 -> nth x (m_pos G2) 0 = v2).

Lemma id_one a i : a < n2 -> i < n2 -> i <> v2 -> (idn a =? idn i) = (a =? i).
Proof. intros Ha Hi Ni. apply eq_true_iff_eq. rewrite !Nat.eqb_eq. split; [|intros ->; auto]. apply (id_inj G1 G2 v1 v2 Hv1 Hv2); auto. Qed.
Lemma id_old a p : p < n1 -> p <> v1 -> (idn a =? p) = false.
Proof. intros Hp Np. apply Nat.eqb_neq. destruct (Nat.eq_dec a v2) as [->|Na]; [rewrite id_v2; congruence|]. pose proof (id_new G1 G2 v1 v2 Hv1 Hv2 a Na). lia. Qed.
Lemma id_big i : i < n2 -> i <> v2 -> n1 <= idn i.
Proof. intros _ Ni. apply (id_new G1 G2 v1 v2 Hv1 Hv2 i Ni). Qed.

Lemma glued_lean : lean n c G1 -> lean n c G2 -> forall p, p < m_n M -> p <> v1 -> lean_at n c M p.
Proof.
  intros Le1 Le2 p Hp Np Em Dg t Ht Nt Wc. pose proof (rep_symm n c _ M RM) as Sy. pose proof (pair_cut (m_n M) _ p t Sy Hp Ht ltac:(congruence)) as E. rewrite Wc in E.
  change (gcut M (fun x => Nat.eqb x p || Nat.eqb x t) + 2 * c = gcut M (fun x => Nat.eqb x p) + gcut M (fun x => Nat.eqb x t))%N in E.
  rewrite (gl_n _ _ _ _ _ _ Gd) in Hp, Ht. rewrite !(gl_cut _ _ _ _ _ _ Gd) in E. rewrite (gl_cut _ _ _ _ _ _ Gd) in Dg.
  pose proof (rep_symm n c _ G1 R1) as S1. pose proof (rep_symm n c _ G2 R2) as S2.
  destruct (Nat.lt_ge_cases p n1) as [Lp|Lp].
  - assert (Z : gcut G2 (fun a => Nat.eqb (idn a) p) = 0%N) by (apply (gcut_const G2 _ false); intros a Ha; apply id_old; auto). rewrite Z in *. rewrite !N.add_0_r in Dg, E.
    assert (Q : gcut G2 (fun a => Nat.eqb (idn a) p || Nat.eqb (idn a) t) = gcut G2 (fun a => Nat.eqb (idn a) t)) by (apply gcut_ext; intros a Ha; rewrite id_old by auto; reflexivity). rewrite Q in E.
    destruct (Nat.lt_ge_cases t n1) as [Lt|Lt].
    + pose proof (pair_cut n1 _ p t S1 Lp Lt ltac:(congruence)) as E'. unfold gcut at 1 3 4 in E. apply (Le1 p Lp) with (t := t); auto; [|lia].
      intros x Hx Px. apply (Em x Hx). rewrite (gl_pos _ _ _ _ _ _ Gd x Hx (rp_range _ _ _ _ R2 x Hx)). rewrite (Out x Hx) by congruence. rewrite Nat.eqb_refl. exact Px.
    + assert (Y : gcut G1 (fun x => Nat.eqb x t) = 0%N) by (apply (gcut_const G1 _ false); intros x Hx; apply Nat.eqb_neq; lia).
      assert (Y2 : gcut G1 (fun x => Nat.eqb x p || Nat.eqb x t) = gcut G1 (fun x => Nat.eqb x p)) by (apply gcut_ext; intros x Hx; destruct (Nat.eqb_spec x t); [lia|apply orb_false_r]). rewrite Y, Y2 in E. lia.
  - destruct (id_inv G1 G2 v1 v2 Hv1 Hv2 p ltac:(lia)) as (I1 & I2 & I3). set (i := mg_inv G1 v2 p) in *. clearbody i.
    assert (Y : gcut G1 (fun x => Nat.eqb x p) = 0%N) by (apply (gcut_const G1 _ false); intros x Hx; apply Nat.eqb_neq; lia).
    assert (Y2 : gcut G1 (fun x => Nat.eqb x p || Nat.eqb x t) = gcut G1 (fun x => Nat.eqb x t)) by (apply gcut_ext; intros x Hx; destruct (Nat.eqb_spec x p); [lia|reflexivity]). rewrite Y, ?Y2 in *. rewrite N.add_0_l in Dg.
    assert (Z : gcut G2 (fun a => Nat.eqb (idn a) p) = gcut G2 (fun a => Nat.eqb a i)) by (apply gcut_ext; intros a Ha; rewrite <- I3; apply id_one; auto). rewrite Z in *.
    assert (Emi : forall x, x < n -> nth x (m_pos G2) 0 <> i).
    { intros x Hx Px. apply (Em x Hx). rewrite (gl_pos _ _ _ _ _ _ Gd x Hx (rp_range _ _ _ _ R2 x Hx)), Px. destruct (Nat.eqb_spec i v2); [contradiction|exact I3]. }
    (* the other end within the second graph *)
    assert (J : (exists j, j < n2 /\ j <> i /\ forall a, a < n2 -> Nat.eqb (idn a) t = Nat.eqb a j) \/ (t < n1 /\ t <> v1)).
    { destruct (Nat.lt_ge_cases t n1) as [Lt|Lt].
      - destruct (Nat.eq_dec t v1) as [->|]; [left|right; auto]. exists v2. split; [auto|]. split; [auto|]. intros a Ha. apply eq_true_iff_eq. rewrite !Nat.eqb_eq. split; [|intros ->; apply id_v2]. intro Q. destruct (Nat.eq_dec a v2); [auto|]. pose proof (id_big a Ha ltac:(auto)). lia.
      - left. destruct (id_inv G1 G2 v1 v2 Hv1 Hv2 t ltac:(lia)) as (J1 & J2 & J3). exists (mg_inv G1 v2 t). split; [auto|]. split; [congruence|]. intros a Ha. rewrite <- J3 at 1. apply id_one; auto. }
    destruct J as [(j & Hj & Nj & Ej)|[T1 T2]].
    + rewrite (gcut_ext G2 (fun a => Nat.eqb (idn a) t) (fun a => Nat.eqb a j) Ej) in E. rewrite (gcut_ext G2 (fun a => Nat.eqb (idn a) p || Nat.eqb (idn a) t) (fun a => Nat.eqb a i || Nat.eqb a j)) in E by (intros a Ha; rewrite Ej by auto; rewrite <- I3, id_one by auto; reflexivity).
      pose proof (pair_cut n2 _ i j S2 I1 Hj ltac:(congruence)) as E'. unfold gcut in E. apply (Le2 i I1 Emi Dg j Hj Nj). lia.
    + rewrite (gcut_const G2 (fun a => Nat.eqb (idn a) t) false) in E by (intros a Ha; apply id_old; auto). rewrite (gcut_ext G2 (fun a => Nat.eqb (idn a) p || Nat.eqb (idn a) t) (fun a => Nat.eqb a i)) in E by (intros a Ha; rewrite (id_old a t) by auto; rewrite orb_false_r, <- I3; apply id_one; auto). lia.
Qed.
End Glue.

Section Contract.
Context (F : (nat -> bool) -> Prop) (Fa : family n F) (M : mg) (R : rep n c F M).
Notation W := (wt (adj (m_rows M))). Notation k := (m_n M).

(** two vertices joined by an edge of weight c have no common neighbour *)
Lemma edge_apart u v y : u < k -> v < k -> y < k -> u <> v -> y <> u -> y <> v -> W v u = c -> (W y v = 0 \/ W y u = 0)%N.
Proof.
  intros Hu Hv Hy Nuv Nyu Nyv Wc. pose proof (rep_symm n c F M R) as Sy. destruct (rp_apart _ _ _ _ R v u Hv Hu ltac:(congruence)) as (h & Dh & Ch).
  assert (G : exists g, g v = true /\ g u = false /\ cutw k W g = c).
  { destruct (h v) eqn:Q1, (h u) eqn:Q2; try congruence; [exists h; auto|]. exists (fun x => negb (h x)). rewrite Q1, Q2. rewrite cutw_compl by auto. auto. }
  clear h Dh Ch. destruct G as (g & Gv & Gu & Cg). rewrite cutw_btw in Cg.
  destruct (g y) eqn:Gy.
  - right. (* v and y on one side *) rewrite (btw_l k W g (fun x => Nat.eqb x v) (fun x => g x && negb (Nat.eqb x v))) in Cg by (intros x _; destruct (Nat.eqb_spec x v) as [->|]; [rewrite Gv|destruct (g x)]; reflexivity).
    pose proof (btw_one k W (fun x => Nat.eqb x v) (fun x => negb (g x)) v u Hv Hu (Nat.eqb_refl v)) as A. cbv beta in A. rewrite Gu in A. specialize (A eq_refl).
    pose proof (btw_one k W (fun x => g x && negb (Nat.eqb x v)) (fun x => negb (g x)) y u Hy Hu) as B. cbv beta in B. rewrite Gy, Gu in B. destruct (Nat.eqb_spec y v); [congruence|]. specialize (B eq_refl eq_refl). lia.
  - left. rewrite (btw_r k W g (fun x => negb (g x)) (fun x => Nat.eqb x u) (fun x => negb (g x) && negb (Nat.eqb x u))) in Cg by (intros x _; destruct (Nat.eqb_spec x u) as [->|]; [rewrite Gu|destruct (g x)]; reflexivity).
    pose proof (btw_one k W g (fun x => Nat.eqb x u) v u Hv Hu Gv (Nat.eqb_refl u)) as A.
    pose proof (btw_one k W g (fun x => negb (g x) && negb (Nat.eqb x u)) v y Hv Hy Gv) as B. cbv beta in B. rewrite Gy in B. destruct (Nat.eqb_spec y u); [congruence|]. specialize (B eq_refl). rewrite (Sy y v) by auto. lia.
Qed.

Lemma contract_lean v e u r M' : v < k -> (forall x, x < n -> nth x (m_pos M) 0 <> v) -> slot (m_rows M) v e = Some (u, c, r) -> gcut M (fun x => x =? v) = (2 * c)%N ->
  contract_edge_std M v e = Some M' -> (forall p, p < k -> p <> v -> lean_at n c M p) -> rep n c F M' -> lean n c M'.
Proof.
  intros Hv Em S Dg E Le R' p Hp Ep Dp t Ht Nt Wt. destruct (rep_two n c F M R v e u r Hv S) as (Hu & Nvu & Wc). destruct (rp_shape _ _ _ _ R) as (L1 & L2 & L3 & Sh).
  pose proof (rep_symm n c F M R) as Sy.
  destruct (contract_edge_std_ok M v e u c r (rp_valid _ _ _ _ R) L1 L2 S) as (M2 & f & E2 & V' & N' & LP' & LC' & [CL1 CL2] & MG & CT & GR).
  { rewrite adj_nth, map_map. apply (rp_nopar _ _ _ _ R). }
  assert (M2 = M') by congruence. subst M2. destruct (GR (rp_groups _ _ _ _ R)) as (G1 & G2 & G3). rewrite (rp_lp _ _ _ _ R) in *.
  assert (CG : forall g, gcut M' g = gcut M (fun x => g (f x))) by (intro g; apply (contraction_cut k W f); auto).
  assert (Lift : forall p, p < m_n M' -> exists x, x < k /\ x <> v /\ f x = p). { intros p0 Hp0. destruct (CL2 p0 Hp0) as (x & Hx & Fx). destruct (Nat.eq_dec x v) as [->|]; [|exists x; auto]. exists u. split; [auto|]. split; [auto|]. rewrite <- Fx. apply MG; auto. }
  destruct (Lift p Hp) as (x & Hx & Nx & Fx). destruct (Lift t Ht) as (y & Hy & Ny & Fy).
  assert (Nxy : x <> y) by congruence.
  assert (Emx : forall z, z < n -> nth z (m_pos M) 0 <> x) by (intros z Hz Q; apply (Ep z Hz); rewrite G3, Q by auto; auto).
  assert (Cls : forall z b, z < k -> b < k -> b <> v -> (f z =? f b) = (z =? b) || ((z =? v) && (b =? u))).
  { intros z b Hz Hb Nb. apply eq_true_iff_eq. rewrite orb_true_iff, andb_true_iff, !Nat.eqb_eq. rewrite (MG z b Hz Hb). split; [intros [A|[[A|A] [B|B]]]; subst; auto; congruence|]. intros [A|[A B]]; subst; auto. }
  rewrite CG in Dp. rewrite (gcut_ext M _ (fun z => Nat.eqb z x || (Nat.eqb z v && Nat.eqb x u))) in Dp by (intros z Hz; rewrite <- Fx; apply Cls; auto).
  destruct (Nat.eq_dec x u) as [->|Nxu].
  { (* the merged vertex *) rewrite Nat.eqb_refl in Dp. rewrite (gcut_ext M _ (fun z => Nat.eqb z u || Nat.eqb z v)) in Dp by (intros z Hz; rewrite andb_true_r; reflexivity).
    pose proof (pair_cut k W u v Sy Hu Hv ltac:(congruence)) as Q. rewrite (Sy u v Hu Hv), Wc in Q. unfold gcut in Dp, Dg. rewrite Dp, Dg in Q. apply (Le u Hu ltac:(congruence) Emx) with (t := v); auto; [unfold gcut; lia|]. rewrite (Sy u v Hu Hv). exact Wc. }
  assert (Dx : gcut M (fun z => z =? x) = (2 * c)%N). { rewrite <- Dp. apply gcut_ext. intros z _. destruct (Nat.eqb_spec x u); [contradiction|]. rewrite andb_false_r, orb_false_r. reflexivity. }
  pose proof (Le x Hx Nx Emx Dx) as Lx.
  (* the weight of the edge in the contracted graph *)
  assert (Wxy : wt (adj (m_rows M')) p t = (W x y + (if Nat.eqb y u then W x v else 0))%N).
  { rewrite (CT p t Hp Ht ltac:(congruence)). transitivity (btw k W (fun z => Nat.eqb z x) (fun z => Nat.eqb z y || (Nat.eqb z v && Nat.eqb y u))).
    - unfold btw. apply bsum_ext. intros a Ha. apply bsum_ext. intros b Hb. rewrite <- Fx, <- Fy, !Cls by auto. destruct (Nat.eqb_spec x u); [contradiction|]. rewrite andb_false_r, orb_false_r. reflexivity.
    - rewrite (btw_r k W _ _ (fun z => Nat.eqb z y) (fun z => Nat.eqb z v && Nat.eqb y u)).
      + rewrite btw_single by auto. f_equal. destruct (Nat.eqb_spec y u).
        * rewrite <- (btw_single k W x v Hx Hv). apply btw_ext; auto. intros z _. apply andb_true_r.
        * unfold btw. apply bsum_zero. intros a _. apply bsum_zero. intros b _. rewrite andb_false_r, andb_false_r. reflexivity.
      + intros z _. destruct (Nat.eqb_spec z y), (Nat.eqb_spec z v); subst; try reflexivity; try congruence. }
  rewrite Wxy in Wt. destruct (Nat.eqb_spec y u) as [Eyu|Nyu]; [rewrite Eyu in Wt|].
  - destruct (edge_apart u v x Hu Hv Hx ltac:(congruence) Nxu Nx Wc) as [Z|Z]; rewrite Z in Wt; [apply (Lx u); auto; lia|apply (Lx v); auto; lia].
  - apply (Lx y Hy); [congruence|lia].
Qed.

Lemma cz_edges_none row : forall e cs d, cz_edges c e row = ([], cs, d) -> forall t r, ~ In (t, c, r) row.
Proof.
  induction row as [|[[t w] r] row IH]; intros e cs d E; cbn [cz_edges] in E; [intros ? ? []|].
  destruct (cz_edges c (S e) row) as [[ts' cs'] d'] eqn:Q. destruct (N.eqb_spec w c) as [->|Nw]; [discriminate E|]. injection E as -> <- <-. intros t0 r0 [I|I]; [congruence|]. eapply IH; eauto.
Qed.
Lemma canonize_lean fuel v M' : v < k -> 2 <= k -> (forall x, x < n -> nth x (m_pos M) 0 <> v) -> gcut M (fun x => x =? v) <> (3 * c)%N -> (forall p, p < k -> p <> v -> lean_at n c M p) ->
  canonize fuel M v c = Some M' -> lean n c M'.
Proof.
  intros Hv K2 Em N3 Le E. destruct (canonize_rep n c Pc F Fa M R fuel v Hv K2 Em N3) as (M2 & E2 & R'). assert (M2 = M') by congruence. subst M2. clear E2.
  destruct (empty_degree n c Pc F Fa M R v Hv K2 Em) as (j & J2 & Ej). unfold canonize in E. destruct (cz_edges c 0 (nth v (m_rows M) [])) as [[ts cs] d] eqn:Q. destruct (cz_edges_ok c Pc _ _ _ _ _ Q) as [D T]. rewrite (degree_row n c F M R v Hv), Ej in D.
  destruct (N.eqb_spec c 0) as [|_]; [lia|]. rewrite D in E. rewrite N.mod_mul, N.div_mul in E by lia. change (negb (0 =? 0)%N) with false in E. cbv iota in E.
  assert (Same : forall M2, M2 = M -> (gcut M (fun x => x =? v) = (2 * c)%N -> forall t r, ~ In (t, c, r) (nth v (m_rows M) [])) -> lean n c M2).
  { intros M2 -> H p Hp. destruct (Nat.eq_dec p v) as [->|Np]; [|auto]. intros _ Dg t Ht Nt Wt. unfold wt in Wt. rewrite adj_nth, sumN_filter, sumN_map in Wt. cbn [fst snd] in Wt.
    assert (X : exists w r, In (t, w, r) (nth v (m_rows M) [])).
    { revert Wt. generalize (nth v (m_rows M) []) as row. induction row as [|[[t1 w1] r1] row IH]; cbn [sumN fst snd]; intro Wt; [lia|]. destruct (Nat.eqb_spec t1 t) as [->|]; [exists w1, r1; left; auto|]. destruct (IH Wt) as (w & r & I). exists w, r. right. auto. }
    destruct X as (w & r & I). pose proof (edge_simple (m_rows M) v t w r (rp_nopar _ _ _ _ R) I) as Ew. assert (w = c). { rewrite Ew. unfold wt. rewrite adj_nth, sumN_filter, sumN_map. exact Wt. } subst w. rewrite H0 in I. apply (H Dg t r I). }
  destruct (N.eqb_spec j 2) as [Ej2|Nj]; [rewrite Ej2 in Ej|].
  - destruct ts as [|[t e] ts].
    + apply (Same M'); [congruence|]. intros _. eapply cz_edges_none; eauto.
    + destruct (T t e (or_introl eq_refl)) as (_ & r & S). rewrite Nat.sub_0_r in S. eapply (contract_lean v e t r M'); eauto.
  - destruct (N.eqb_spec j 3) as [Ej3|]; [rewrite Ej3 in Ej; congruence|]. apply (Same M'); [congruence|]. intro X. exfalso. rewrite Ej in X. nia.
Qed.
End Contract.
End Lean.

Section Whole.
Context (n : nat) (c : N) (Pc : (0 < c)%N) (F1 F2 : (nat -> bool) -> Prop) (G1 G2 : mg) (R1 : rep n c F1 G1) (R2 : rep n c F2 G2) (Fa1 : family n F1) (Fa2 : family n F2).
Context (v1 v2 : nat) (Hv1 : v1 < m_n G1) (Hv2 : v2 < m_n G2).
Context (Out : forall x, x < n -> nth x (m_pos G1) 0 <> v1 -> nth x (m_pos G2) 0 = v2).
Context (Agree : F1 (fun x => nth x (m_pos G1) 0 =? v1) <-> F2 (fun x => nth x (m_pos G1) 0 =? v1)).

Theorem merge_lean fuel M : lean n c G1 -> lean n c G2 -> merge_graphs fuel G1 v1 G2 v2 c = Some M -> lean n c M.
Proof.
  intros Le1 Le2. unfold merge_graphs. destruct (Nat.eqb_spec (m_n G2) 1) as [E2|N2]; [intro E; injection E as <-; auto|]. destruct (Nat.eqb_spec (m_n G1) 1) as [E1|N1]; [intro E; injection E as <-; auto|].
  destruct (glue_rep n c Pc F1 F2 G1 G2 R1 R2 Fa1 Fa2 v1 v2 Hv1 Hv2 Out) as (M0 & E & Gd & RM). rewrite E.
  pose proof (glued_lean n c Pc F1 F2 G1 G2 R1 R2 v1 v2 Hv1 Hv2 M0 Gd RM Out Le1 Le2) as Le. assert (Hn : m_n M0 = m_n G1 + (m_n G2 - 1)) by apply (gl_n _ _ _ _ _ _ Gd). assert (Hv : v1 < m_n M0) by lia.
  destruct (nth v1 (m_cont M0) []) as [|y ys] eqn:Q.
  - pose proof (rep_empty n c (Fboth F1 F2) M0 RM v1 Hv Q) as Em. intro EC. apply (canonize_lean n c Pc (Fboth F1 F2) (both_family n F1 F2 Fa1 Fa2) M0 RM fuel v1 M Hv); auto; [lia|]. eapply (glued_three n c Pc F1 F2 G1 G2); eauto; lia.
  - intro EM. injection EM as <-. intros p Hp. destruct (Nat.eq_dec p v1) as [->|Np]; [|auto]. intros Em. exfalso. destruct (rp_groups _ _ _ _ RM) as [_ G]. assert (I : In y (nth v1 (m_cont M0) [])) by (rewrite Q; left; auto). apply G in I; auto. rewrite (rp_lp _ _ _ _ RM) in I. destruct I as [Hy Py]. apply (Em y Hy Py).
Qed.
End Whole.
