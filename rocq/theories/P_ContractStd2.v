(* P_ContractStd2.v - contractEdge keeps a graph without parallel edges and without edges of weight 0.  The proofs follow P_Mutable8.v
   and P_ContractStd.v, with counts of the edges to each vertex carried along. *)
From Verif Require Import SpecCut P_Cut P_Mutable P_Mutable2 P_Mutable3 P_Mutable4 P_Mutable5 P_Mutable6 P_Mutable7 P_Mutable8 P_ContractStd M_Mutable M_Branch P_LocalSearch P_StCactus7 P_Merge.

Lemma bsum_pos m (f : nat -> N) : bsum m f <> 0%N -> exists i, i < m /\ f i <> 0%N.
Proof.
  induction m as [|m IH]; intro H; [destruct H; reflexivity|]. rewrite bsum_S in H. destruct (N.eq_dec (f m) 0) as [E|E]; [|exists m; split; [lia|auto]]. destruct IH as (i & A & B); [lia|]. exists i. split; [lia|auto].
Qed.

(** counting the edges to b, and those of weight 0 *)
Definition cb (b : nat) : nat -> N -> N := fun t _ => if t =? b then 1%N else 0%N.
Definition fz : nat -> N -> N := fun _ w => if (w =? 0)%N then 1%N else 0%N.

Lemma hit_all D R first n k t w r ed2 rev w2 R1 R2 R' :
  linked D R -> slot R n k = Some (t, w, r) -> D n k = false -> n <> first ->
  slot R first ed2 = Some (t, w2, rev) -> D first ed2 = false -> (forall b, D t b = false) ->
  add_wgt R first ed2 w = Some R1 -> add_wgt R1 t rev w = Some R2 -> internal_delete R2 t r = Some R' ->
  forall f u, (ls (dadd D n k) R' f u + pairf n t w f u + pairf first t w2 f u = ls D R f u + pairf first t (w2 + w) f u)%N.
Proof.
  intros L Sn Dn Nf Sf Df Dt E1 E2 E3. destruct (L n k t w r Sn Dn) as [Ht [Nt [_ St]]].
  destruct (L first ed2 t w2 rev Sf Df) as [_ [Ntf [_ Stf]]].
  destruct (slot_lt _ _ _ _ Sf) as [Hf Hed]. destruct (slot_lt _ _ _ _ Stf) as [_ Hrev].
  destruct (setw_ok D R first ed2 t w2 rev (w2 + w) L Sf Df) as (N1 & RL1 & SL1 & L1 & C1).
  assert (Sn2 : slot (setw R first ed2 t rev (w2 + w)%N) n k = Some (t, w, r)).
  { rewrite SL1. destruct (Nat.eqb_spec n first); [congruence|]. destruct (Nat.eqb_spec n t); [congruence|]. auto. }
  destruct (drop_ok D _ n k t w r L1 Sn2 Dn Dt) as (R3 & E & N' & RL' & A & B & LK & C).
  unfold add_wgt in E1. rewrite Sf in E1. injection E1 as <-. unfold add_wgt in E2. rewrite slot_rset in E2 by auto.
  destruct (Nat.eqb_spec t first); [congruence|]. cbn [andb] in E2. rewrite Stf in E2. injection E2 as <-.
  assert (Q : R3 = R') by (assert (Some R3 = Some R') by (rewrite <- E, <- E3; reflexivity); congruence). subst R3.
  intros f u. specialize (C f u). specialize (C1 f u). unfold pairf in *. lia.
Qed.

Lemma ls_live_le D R f u e t w r : slot R u e = Some (t, w, r) -> D u e = false -> (f t w <= ls D R f u)%N.
Proof.
  intros S Dv. destruct (slot_lt _ _ _ _ S) as [_ He]. unfold ls. rewrite <- (val_live D R f u e t w r S Dv). apply (bsum_In_le _ (val D R f u)). exact He.
Qed.
Lemma ls_some D R f u : ls D R f u <> 0%N -> exists e t w r, slot R u e = Some (t, w, r) /\ D u e = false /\ f t w <> 0%N.
Proof.
  intro H. unfold ls in H. assert (Q : exists e, e < rl R u /\ val D R f u e <> 0%N).
  { apply (bsum_pos _ (val D R f u)). exact H. }
  destruct Q as (e & He & V). destruct (slot_some R u e He) as (t & w & r & S). exists e, t, w, r. split; [auto|]. destruct (D u e) eqn:E; [rewrite val_dead in V by auto; congruence|]. split; [auto|]. rewrite (val_live D R f u e t w r S E) in V. auto.
Qed.

Section CE2.
Variables (node target edge skip : nat) (n0 : nat) (T : nat -> option nat) (len : nat) (dw : N) (m : list (option (nat * nat))).
Hypothesis Nnt : node <> target.
Hypothesis Hnode : node < n0.
Hypothesis Htarget : target < n0.
Hypothesis Tinj : forall j j' t, j < len -> j' < len -> T j = Some t -> T j' = Some t -> j = j'.
Hypothesis Tskip : T skip = Some node.
Hypothesis Hskip : skip < len.
Notation inE := (inE node target). Notation Dk := (Dk node target edge skip). Notation cinv := (cinv node target edge skip n0 T len dw m).

Record extra_at (D : dead) (k : nat) (R : list (list half)) : Prop := {
  ex_one : forall u b, (ls D R (cb b) u <= 1)%N;
  ex_map : forall t, nth t m None = None -> (forall j, j < k -> T j <> Some t) -> ls D R (cb t) node = 0%N;
  ex_pos : forall u, ls D R fz u = 0%N }.
Definition extra (k : nat) := extra_at (Dk k) k.

Lemma extra_ext D k R : (forall R f u, ls D R f u = ls (Dk k) R f u) -> extra_at D k R -> extra k R.
Proof. intros E [A B C]. constructor; intros; rewrite <- E; auto. Qed.
Lemma hit_extra k R R' t w w2 r : extra k R -> slot R target k = Some (t, w, r) -> Dk k target k = false ->
  (forall f u, (ls (dadd (Dk k) target k) R' f u + pairf target t w f u + pairf node t w2 f u = ls (Dk k) R f u + pairf node t (w2 + w) f u)%N) ->
  extra_at (dadd (Dk k) target k) (S k) R'.
Proof.
  intros [A B P] S Dv C. pose proof (ls_live_le (Dk k) R fz target k t w r S Dv) as W. rewrite P in W. assert (Wz : (w <> 0)%N) by (intros ->; unfold fz in W; rewrite N.eqb_refl in W; lia). constructor.
  - intros u b. specialize (C (cb b) u). specialize (A u b). unfold pairf, cb in *. lia.
  - intros x Mx H. specialize (C (cb x) node). specialize (B x Mx (fun j Hj => H j ltac:(lia))). unfold pairf, cb in *. lia.
  - intro u. specialize (C fz u). specialize (P u). unfold pairf in C. assert (Z : fz t (w2 + w) = 0%N /\ fz node (w2 + w) = 0%N) by (unfold fz; destruct (N.eqb_spec (w2 + w) 0); [lia|auto]). destruct Z as [Z1 Z2]. rewrite Z1, Z2, P in C. destruct (u =? node), (u =? t); lia.
Qed.
Lemma red_extra k R R' t w r : extra k R -> linked (Dk k) R -> T k = Some t -> slot R target k = Some (t, w, r) -> Dk k target k = false -> nth t m None = None -> k < len -> t <> node -> t <> target ->
  (forall f u, (ls (dadd (Dk k) target k) R' f u + pairf target t w f u = ls (Dk k) R f u + pairf node t w f u)%N) ->
  extra_at (dadd (Dk k) target k) (S k) R'.
Proof.
  intros [A B P] L Tk S Dv Em Hk Nn Ntt C. pose proof (ls_live_le (Dk k) R fz target k t w r S Dv) as W. rewrite P in W. assert (Wz : (w <> 0)%N) by (intros ->; unfold fz in W; rewrite N.eqb_refl in W; lia).
  assert (Z1 : ls (Dk k) R (cb t) node = 0%N). { apply B; auto. intros j Hj Tj. assert (j = k) by (apply (Tinj j k t); auto; lia). lia. }
  assert (Z2 : ls (Dk k) R (cb node) t = 0%N).
  { destruct (N.eq_dec (ls (Dk k) R (cb node) t) 0) as [|Ne]; [auto|]. destruct (ls_some _ _ _ _ Ne) as (e & t' & w' & r' & S' & D' & F). unfold cb in F. destruct (Nat.eqb_spec t' node) as [->|]; [|congruence].
    destruct (L t e node w' r' S' D') as (_ & _ & Dn & Sn). pose proof (ls_live_le (Dk k) R (cb t) node r' t w' e Sn Dn) as Q. unfold cb at 1 in Q. rewrite Nat.eqb_refl in Q. lia. }
  constructor.
  - intros u b. specialize (C (cb b) u). specialize (A u b). unfold pairf in C. destruct (Nat.eqb_spec u node) as [->|Nu].
    + destruct (Nat.eqb_spec node t); [congruence|]. destruct (Nat.eqb_spec node target); [congruence|]. destruct (Nat.eq_dec b t) as [->|Nb].
      * rewrite Z1 in C. unfold cb in *. rewrite Nat.eqb_refl in C. lia.
      * unfold cb in *. destruct (Nat.eqb_spec t b); [congruence|]. lia.
    + destruct (Nat.eqb_spec u t) as [->|Nt].
      * destruct (Nat.eqb_spec t target); [congruence|]. destruct (Nat.eq_dec b node) as [->|Nb].
        -- rewrite Z2 in C. unfold cb in *. rewrite Nat.eqb_refl in C. lia.
        -- unfold cb in *. destruct (Nat.eqb_spec node b); [congruence|]. lia.
      * lia.
  - intros x Mx H. specialize (C (cb x) node). specialize (B x Mx (fun j Hj => H j ltac:(lia))). assert (x <> t) by (intros ->; apply (H k); auto). unfold pairf, cb in *. destruct (Nat.eqb_spec node t); [congruence|]. destruct (Nat.eqb_spec t x); [congruence|]. destruct (node =? target), (node =? node); lia.
  - intro u. specialize (C fz u). specialize (P u). unfold pairf in C. assert (Z : fz t w = 0%N /\ fz node w = 0%N) by (unfold fz; destruct (N.eqb_spec w 0); [lia|auto]). destruct Z as [Y1 Y2]. rewrite Y1, Y2, P in C. destruct (u =? node), (u =? t); lia.
Qed.

Lemma contract_edges_more cnt : forall k R deg ne, k + cnt = len -> cinv k R deg ne -> extra k R ->
  exists R' deg' ne', contract_edges cnt m skip node target k (R, deg, ne) = Some (R', deg', ne') /\ cinv len R' deg' ne' /\
    same_sums inE node n0 (Dk k) (Dk len) R R' /\ extra len R'.
Proof.
  induction cnt as [|cnt IH]; intros k R deg ne Hk I X.
  - rewrite Nat.add_0_r in Hk. subst k. exists R, deg, ne. split; [reflexivity|]. split; [auto|]. split; [split; auto|auto].
  - cbn [contract_edges]. destruct (Nat.eqb_spec k skip) as [Ek|Nk].
    + assert (DE : forall a b, Dk k a b = Dk (S k) a b).
      { intros a b. unfold Dk. f_equal. f_equal. destruct (Nat.ltb_spec b k), (Nat.ltb_spec b (S k)), (Nat.eqb_spec b skip); try reflexivity; lia. }
      assert (LE : forall R f u, ls (Dk k) R f u = ls (Dk (S k)) R f u) by (intros; apply ls_D_ext; intros; apply DE).
      destruct (IH (S k) R deg ne ltac:(lia)) as (R' & deg' & ne' & E & I' & [S1 S2] & X').
      { destruct I as [ci_n0 ci_link0 ci_map0 ci_edge0 ci_T0 ci_len0 ci_dlen0 ci_dnode0 ci_dout0 ci_ne0]. constructor; auto.
        - apply linked_ext with (D := Dk k); auto.
        - intros j t rev ed2 Hj. apply ci_map0. lia.
        - rewrite <- LE. auto.
        - intros u Hu N1 N2. rewrite <- LE. auto.
        - rewrite ci_ne0. f_equal. apply bsum_ext. intros u _. apply LE. }
      { destruct X as [X1 X2 X3]. constructor; intros; rewrite <- LE; auto. }
      exists R', deg', ne'. split; [auto|]. split; [auto|]. split; [|auto]. split.
      * intros f Lf. rewrite S1 by auto. unfold ssum. apply bsum_ext. intros u _. destruct (inE u); [symmetry; apply LE|reflexivity].
      * intros f u Lf Iu. rewrite S2 by auto. symmetry. apply LE.
    + destruct (slot_some R target k) as (t & w & r & Sk); [rewrite (ci_len _ _ _ _ _ _ _ _ _ _ _ _ _ I); lia|]. rewrite Sk.
      assert (Tk : T k = Some t) by (rewrite <- (ci_T _ _ _ _ _ _ _ _ _ _ _ _ _ I); unfold tgt_of; rewrite Sk; reflexivity).
      assert (Dkk : Dk k target k = false).
      { unfold Dk. rewrite Nat.eqb_refl, Nat.ltb_irrefl. destruct (Nat.eqb_spec k skip); [congruence|]. destruct (Nat.eqb_spec target node); [congruence|reflexivity]. }
      destruct (ci_link _ _ _ _ _ _ _ _ _ _ _ _ _ I target k t w r Sk Dkk) as [Ht [Ntt [_ St]]]. rewrite (ci_n _ _ _ _ _ _ _ _ _ _ _ _ _ I) in Ht.
      assert (Ntn : t <> node).
      { intros ->. apply Nk. apply (Tinj k skip node); auto; lia. }
      assert (It : inE t = false) by (unfold inE; destruct (Nat.eqb_spec t node), (Nat.eqb_spec t target); try congruence; reflexivity).
      assert (Dt : forall b, Dk k t b = false).
      { intro b. unfold Dk. destruct (Nat.eqb_spec t target); [congruence|]. destruct (Nat.eqb_spec t node); [congruence|reflexivity]. }
      assert (DX : forall a b, dadd (Dk k) target k a b = Dk (S k) a b).
      { intros a b. unfold dadd, Dk. destruct (Nat.eqb_spec a target) as [->|]; cbn [andb orb].
        - destruct (Nat.eqb_spec target node); [congruence|]. cbn [andb orb]. rewrite !orb_false_r.
          destruct (Nat.ltb_spec b k), (Nat.ltb_spec b (S k)), (Nat.eqb_spec b skip), (Nat.eqb_spec b k); try reflexivity; lia.
        - rewrite orb_false_r. reflexivity. }
      assert (LX : forall R f u, ls (dadd (Dk k) target k) R f u = ls (Dk (S k)) R f u) by (intros; apply ls_D_ext; intros; apply DX).
      assert (In1 : inE node = true) by (unfold inE; rewrite Nat.eqb_refl; reflexivity).
      assert (In2 : inE target = true) by (unfold inE; rewrite Nat.eqb_refl, orb_true_r; reflexivity).
      assert (SUMS : forall R', (forall f u, lin f -> (ls (dadd (Dk k) target k) R' f u + pairf target t w f u = ls (Dk k) R f u + pairf node t w f u)%N) ->
        same_sums inE node n0 (Dk k) (Dk (S k)) R R').
      { intros R' C. apply step_sums with (n := target) (t := t) (w := w); auto. intros f u Lf. rewrite <- LX. auto. }
      assert (FIN : forall R' R3 D3, same_sums inE node n0 (Dk k) (Dk (S k)) R R' -> same_sums inE node n0 (Dk (S k)) D3 R' R3 -> same_sums inE node n0 (Dk k) D3 R R3).
      { intros R' R3 D3 [A1 A2] [B1 B2]. split; [intros f Lf; rewrite B1, A1; auto|intros f u Lf Iu; rewrite B2, A2; auto]. }
      destruct (nth t m None) as [[rev ed2]|] eqn:Em.
      * destruct (ci_map _ _ _ _ _ _ _ _ _ _ _ _ _ I k t rev ed2 ltac:(lia) Nk Tk Em) as [Ned [w2 Sf]].
        assert (Df : Dk k node ed2 = false).
        { unfold Dk. destruct (Nat.eqb_spec node target); [congruence|]. destruct (Nat.eqb_spec ed2 edge); [congruence|]. rewrite andb_false_r. reflexivity. }
        destruct (hit_ok (Dk k) R node target k t w r ed2 rev w2 (ci_link _ _ _ _ _ _ _ _ _ _ _ _ _ I) Sk Dkk (fun e => Nnt (eq_sym e)) Sf Df Dt)
          as (R1 & R2 & R' & E1 & E2 & E3 & RT & N' & RL' & SL' & SF' & LK & C & CC).
        rewrite E1, E2, E3. pose proof (hit_all (Dk k) R node target k t w r ed2 rev w2 R1 R2 R' (ci_link _ _ _ _ _ _ _ _ _ _ _ _ _ I) Sk Dkk (fun e => Nnt (eq_sym e)) Sf Df Dt E1 E2 E3) as CA.
        destruct (IH (S k) R' (deg_add deg node w) (ne - 2)%N ltac:(lia)) as (R3 & deg' & ne' & E & I' & SS & X').
        { pose proof I as I0. destruct I0 as [ci_n0 ci_link0 ci_map0 ci_edge0 ci_T0 ci_len0 ci_dlen0 ci_dnode0 ci_dout0 ci_ne0]. constructor.
          - congruence.
          - apply linked_ext with (D := dadd (Dk k) target k); auto.
          - intros j t' rev' ed' Hj Nj Tj Hm. destruct (ci_map0 j t' rev' ed' ltac:(lia) Nj Tj Hm) as [A [w' S']]. split; [auto|]. exists w'.
            assert (Nt' : t' <> t). { intros ->. assert (k = j) by (apply (Tinj k j t); auto; lia). lia. }
            rewrite SL'; [|auto|intros _ ->; rewrite Sf in S'; congruence]. rewrite S'. cbn. unfold moved. cbn.
            destruct (Nat.eqb_spec t' t); [congruence|]. rewrite andb_false_r. reflexivity.
          - rewrite RL'. destruct (Nat.eqb_spec node t); [congruence|auto].
          - intro b. rewrite <- ci_T0. apply tgt_moved with (D := Dk k) (v := t) (l := rl R t - 1) (e := r). apply SL'; congruence.
          - rewrite RL'. destruct (Nat.eqb_spec target t); [congruence|auto].
          - unfold deg_add. rewrite upd_length. auto.
          - unfold deg_add. rewrite nth_upd_eq by lia. rewrite ci_dnode0, <- LX. specialize (C fd node lin_fd). unfold pairf in C. rewrite Nat.eqb_refl in C.
            destruct (Nat.eqb_spec node target); [congruence|]. destruct (Nat.eqb_spec node t); [congruence|]. unfold fd in *. lia.
          - intros u Hu N1 N2. unfold deg_add. rewrite nth_upd_neq by auto. rewrite ci_dout0, <- LX by auto. specialize (C fd u lin_fd). unfold pairf in C.
            destruct (Nat.eqb_spec u target); [congruence|]. destruct (Nat.eqb_spec u node); [congruence|]. destruct (u =? t); unfold fd in *; lia.
          - rewrite ci_ne0.
            assert (P : (bsum n0 (ls (Dk (S k)) R' fc) + 2 = bsum n0 (ls (Dk k) R fc))%N).
            { rewrite <- (pairf_count n0 target t w) by auto. rewrite <- bsum_add. apply bsum_ext. intros i _. rewrite <- LX. apply CC. }
            lia. }
        { apply (extra_ext (dadd (Dk k) target k)); [auto|]. apply (hit_extra k R R' t w w2 r X Sk Dkk CA). }
        exists R3, deg', ne'. split; [auto|]. split; [auto|]. split; [|auto]. eapply FIN; [apply SUMS; exact C|auto].
      * destruct (redirect_ok (Dk k) R node target k t w r (ci_link _ _ _ _ _ _ _ _ _ _ _ _ _ I) Sk Dkk (fun e => Nnt (eq_sym e))) as (R1 & R2 & E1 & E2 & N' & RL' & SL' & LK & C); auto.
        { rewrite (ci_n _ _ _ _ _ _ _ _ _ _ _ _ _ I). auto. }
        { unfold Dk. destruct (Nat.eqb_spec node target); [congruence|]. cbn [andb orb]. rewrite Nat.eqb_refl. cbn. apply Nat.eqb_neq. pose proof (ci_edge _ _ _ _ _ _ _ _ _ _ _ _ _ I). lia. }
        change (length (nth node R [])) with (rl R node). rewrite E1, E2. set (R' := push R2 node (t, w, r)) in *.
        destruct (IH (S k) R' (deg_add deg node w) ne ltac:(lia)) as (R3 & deg' & ne' & E & I' & SS & X').
        { pose proof I as I0. destruct I0 as [ci_n0 ci_link0 ci_map0 ci_edge0 ci_T0 ci_len0 ci_dlen0 ci_dnode0 ci_dout0 ci_ne0]. constructor.
          - congruence.
          - apply linked_ext with (D := dadd (Dk k) target k); auto.
          - intros j t' rev' ed' Hj Nj Tj Hm. destruct (ci_map0 j t' rev' ed' ltac:(lia) Nj Tj Hm) as [A [w' S']]. split; [auto|]. exists w'.
            rewrite SL'. destruct (Nat.eqb_spec node t); [congruence|]. cbn [andb]. rewrite Nat.eqb_refl. cbn [andb].
            pose proof (slot_lt _ _ _ _ S'). destruct (Nat.eqb_spec ed' (rl R node)); [lia|auto].
          - rewrite RL'. rewrite Nat.eqb_refl. lia.
          - intro b. rewrite <- ci_T0. unfold tgt_of. rewrite SL'. destruct (Nat.eqb_spec target t); [congruence|]. destruct (Nat.eqb_spec target node); [congruence|]. reflexivity.
          - rewrite RL'. destruct (Nat.eqb_spec target node); [congruence|auto].
          - unfold deg_add. rewrite upd_length. auto.
          - unfold deg_add. rewrite nth_upd_eq by lia. rewrite ci_dnode0, <- LX. specialize (C fd node). unfold pairf in C. rewrite Nat.eqb_refl in C.
            destruct (Nat.eqb_spec node target); [congruence|]. destruct (Nat.eqb_spec node t); [congruence|]. unfold fd in *. lia.
          - intros u Hu N1 N2. unfold deg_add. rewrite nth_upd_neq by auto. rewrite ci_dout0, <- LX by auto. specialize (C fd u). unfold pairf in C.
            destruct (Nat.eqb_spec u target); [congruence|]. destruct (Nat.eqb_spec u node); [congruence|]. destruct (u =? t); unfold fd in *; lia.
          - rewrite ci_ne0.
            assert (P : (bsum n0 (ls (Dk (S k)) R' fc) + 2 = bsum n0 (ls (Dk k) R fc) + 2)%N).
            { rewrite <- (pairf_count n0 target t w) at 1 by auto. rewrite <- (pairf_count n0 node t w) by auto. rewrite <- !bsum_add. apply bsum_ext. intros i _. rewrite <- LX. apply C. }
            lia. }
        { apply (extra_ext (dadd (Dk k) target k)); [auto|]. apply (red_extra k R R' t w r X (ci_link _ _ _ _ _ _ _ _ _ _ _ _ _ I) Tk Sk Dkk Em); auto; try lia. }
        exists R3, deg', ne'. split; [auto|]. split; [auto|]. split; [|auto]. eapply FIN; [apply SUMS; intros; apply C|auto].
Qed.
End CE2.

Lemma ls_cb R b u : ls nodead R (cb b) u = cntn b (tgts (nth u R [])).
Proof. rewrite ls_nodead. unfold cntn, tgts. rewrite sumN_map. reflexivity. Qed.
Lemma ls_dead_le D R f u : (ls D R f u <= ls nodead R f u)%N.
Proof. unfold ls. apply bsum_le. intros i Hi. unfold val, nodead. destruct (slot R u i) as [[[t w] r]|]; [|lia]. destruct (D u i); lia. Qed.
Lemma ls_live_mono D R f f' u : (forall e t w r, slot R u e = Some (t, w, r) -> D u e = false -> (f t w <= f' t w)%N) -> (ls D R f u <= ls D R f' u)%N.
Proof. intro H. unfold ls. apply bsum_le. intros e _. unfold val. destruct (slot R u e) as [[[t w] r]|] eqn:Q; [|lia]. destruct (D u e) eqn:E; [lia|]. eapply H; eauto. Qed.
Lemma edge_map_full n0 edge (row : list half) : forall k m, length m = n0 -> forall t, t < n0 ->
  nth t m None <> None \/ (exists e w r, nth_error row e = Some (t, w, r) /\ k + e <> edge) -> nth t (edge_map row edge k m) None <> None.
Proof.
  induction row as [|[[t1 w1] r1] row IH]; intros k m Lm t Ht H; cbn [edge_map].
  - destruct H as [H|(e & w & r & H & _)]; [auto|]. destruct e; discriminate H.
  - apply IH; [destruct (k =? edge); [auto|destruct (nth t1 m None); rewrite ?upd_length; auto]|auto|]. destruct H as [H|(e & w & r & H & Ne)].
    + left. destruct (k =? edge); [auto|]. destruct (nth t1 m None) eqn:Q; [auto|]. destruct (Nat.eq_dec t t1) as [->|]; [rewrite nth_upd_eq by lia; discriminate|rewrite nth_upd_neq by auto; auto].
    + destruct e as [|e].
      * injection H as -> -> ->. left. destruct (Nat.eqb_spec k edge); [lia|]. destruct (nth t m None) eqn:Q; [congruence|]. rewrite nth_upd_eq by lia. discriminate.
      * right. exists e, w, r. split; [exact H|lia].
Qed.

(** no edge of weight 0 *)
Definition no_zero (R : list (list half)) : Prop := forall v t w r, In (t, w, r) (nth v R []) -> w <> 0%N.

Theorem contract_edge_std_keeps G v0 e0 t0 w0 r0 G' : mvalid G -> length (m_part G) = m_n G -> length (m_cut G) = m_n G ->
  slot (m_rows G) v0 e0 = Some (t0, w0, r0) -> no_parallel (m_rows G) -> no_zero (m_rows G) -> contract_edge_std G v0 e0 = Some G' ->
  no_parallel (m_rows G') /\ no_zero (m_rows G') /\ m_last G' = m_last G - 1 /\ m_orig G' = m_orig G /\ length (m_cont G') = length (m_cont G) - 1.
Proof.
  intros [V [DG CN]] LP LC SV NP PW E. set (n := m_n G) in *. set (R := m_rows G) in *. assert (NR : length R = n) by reflexivity.
  pose proof (proj2 (linked_valid R) V) as L. apply deg_ls in DG. destruct DG as [LD DG]. apply cnt_ls in CN.
  destruct (L v0 e0 t0 w0 r0 SV eq_refl) as [Ht0 [Nt0 [_ SR]]].
  assert (EX : exists node target edge skip, (if t0 <? v0 then (t0, r0) else (v0, e0)) = (node, edge) /\ slot R node edge = Some (target, w0, skip) /\
     node < target /\ target = Nat.max v0 t0 /\ (forall x, (x = v0 \/ x = t0) <-> (x = node \/ x = target))).
  { destruct (Nat.ltb_spec t0 v0).
    - exists t0, v0, r0, e0. repeat split; auto; try lia; intros [?|?]; auto.
    - exists v0, t0, e0, r0. repeat split; auto; try lia; intros [?|?]; auto. }
  destruct EX as (node & target & edge & skip & Epick & SN & Hlt & Emax & Hends). assert (ND : NoDup (map fst (nth target (adj (m_rows G)) []))) by (rewrite adj_nth, map_map; apply (NP target)).
  unfold contract_edge_std in E. fold R in E. rewrite SV, Epick, SN in E. fold n in E. set (back := n - 1) in *.
  set (m := edge_map (nth node R []) edge 0 (repeat None n)) in *.
  destruct (edge_map_ok node edge n R (nth node R []) 0 (repeat None n)) as [Lm Hm].
  { apply repeat_length. } { intro j. reflexivity. } { intros t rev ed2 X. rewrite nth_repeat in X. discriminate. }
  fold m in Lm, Hm. destruct (L node edge target w0 skip SN eq_refl) as [Htn [Ntn [_ ST]]].
  destruct (slot_lt _ _ _ _ SN) as [Hn0 Hedge]. destruct (slot_lt _ _ _ _ ST) as [_ Hskip]. rewrite NR in *.
  set (T := tgt_of R target). set (len := rl R target).
  assert (Tinj : forall j j' t, j < len -> j' < len -> T j = Some t -> T j' = Some t -> j = j') by (intros j j' t _ _; apply row_targets_inj; auto).
  assert (Tskip : T skip = Some node) by (unfold T, tgt_of; rewrite ST; reflexivity).
  (* the contracted edge leaves *)
  destruct (kill_ok nodead R node edge target w0 skip L SN eq_refl) as [LK0 LS0].
  assert (DE0 : forall a b, dadd (dadd nodead node edge) target skip a b = Dk node target edge skip 0 a b).
  { intros a b. unfold dadd, nodead, Dk. cbn [orb]. rewrite orb_comm. reflexivity. }
  assert (LE0 : forall f u, ls (dadd (dadd nodead node edge) target skip) R f u = ls (Dk node target edge skip 0) R f u) by (intros; apply ls_D_ext; intros; apply DE0).
  assert (I0 : cinv node target edge skip n T len w0 m 0 R (m_deg G) (m_ne G)).
  { constructor.
    - exact NR.
    - apply linked_ext with (D := dadd (dadd nodead node edge) target skip); auto.
    - intros j t rev ed2 Hj Nj Tj X. apply Hm; auto.
    - auto.
    - reflexivity.
    - reflexivity.
    - auto.
    - rewrite DG by lia. rewrite LS0, LE0, Nat.eqb_refl. destruct (Nat.eqb_spec node target); [lia|]. unfold fd. lia.
    - intros u Hu N1 N2. rewrite DG by lia. rewrite LS0, LE0. destruct (Nat.eqb_spec u node); [congruence|]. destruct (Nat.eqb_spec u target); [congruence|]. lia.
    - rewrite CN. rewrite ?NR. rewrite <- (pairf_count n node target w0) by lia. rewrite <- bsum_add. apply bsum_ext. intros u _. rewrite LS0, LE0. unfold pairf. lia. }
  assert (X0 : extra node target edge skip T m 0 R).
  { constructor.
    - intros u b. eapply N.le_trans; [apply ls_dead_le|]. rewrite ls_cb. apply cntn_nodup. apply (NP u).
    - intros x Mx _. destruct (N.eq_dec (ls (Dk node target edge skip 0) R (cb x) node) 0) as [|Ne]; [auto|]. exfalso. destruct (ls_some _ _ _ _ Ne) as (e & t & w & r & S & D & F). unfold cb in F. destruct (Nat.eqb_spec t x) as [->|]; [|congruence].
      destruct (L node e x w r S eq_refl) as [Hx _]. rewrite NR in Hx. revert Mx. unfold m. apply (edge_map_full n edge (nth node R []) 0 (repeat None n) (repeat_length _ _) x Hx). right. exists e, w, r. split; [exact S|]. intro Q. cbn in Q. subst e. unfold Dk in D. rewrite !Nat.eqb_refl in D. rewrite orb_true_r in D. discriminate D.
    - intro u. destruct (N.eq_dec (ls (Dk node target edge skip 0) R fz u) 0) as [|Ne]; [auto|]. exfalso. destruct (ls_some _ _ _ _ Ne) as (e & t & w & r & S & D & F). unfold fz in F. destruct (N.eqb_spec w 0) as [->|]; [|congruence]. eapply PW; [eapply nth_error_In; exact S|reflexivity]. }
  destruct (contract_edges_more node target edge skip n T len w0 m ltac:(lia) Hn0 Htn Tinj Tskip Hskip len 0 R (m_deg G) (m_ne G) eq_refl I0 X0)
    as (R1 & deg1 & ne1 & E1 & I1 & SS & [XA XB XC]).
  change (length (nth target R [])) with len in E. rewrite E1 in E. destruct I1 as [N1 LK1 _ HE1 T1 RL1 LD1 DN1 DO1 NE1].
  set (De := fun a b => (a =? target) || ((a =? node) && (b =? edge))).
  assert (DEe : forall a b, b < rl R1 a -> Dk node target edge skip len a b = De a b).
  { intros a b Hb. unfold Dk, De. f_equal. destruct (Nat.eqb_spec a target) as [->|]; [|reflexivity]. destruct (Nat.ltb_spec b len); [reflexivity|unfold len in *; lia]. }
  assert (LEe : forall f u, ls (Dk node target edge skip len) R1 f u = ls De R1 f u) by (intros; apply ls_D_ext; intros; apply DEe; auto).
  assert (LKe : linked De R1) by (apply linked_ext with (D := Dk node target edge skip len); auto).
  assert (Dt : forall b, De target b = true) by (intro b; unfold De; rewrite Nat.eqb_refl; reflexivity).
  assert (Dback : target < back -> forall b, De back b = false).
  { intros Htb b. unfold De. destruct (Nat.eqb_spec back target); [lia|]. destruct (Nat.eqb_spec back node); [lia|reflexivity]. }
  (* the last vertex moves *)
  set (R2 := move_last R1 target []) in *.
  assert (SR2 : forall a, a < n - 1 -> nth a R2 [] = nth (ren target back a) R1 []).
  { intros a Ha. unfold R2. rewrite nth_move_last by lia. rewrite N1. reflexivity. }
  assert (N2 : length R2 = n - 1) by (unfold R2; rewrite length_move_last; lia).
  change (length (nth target R2 [])) with (rl R2 target) in E.
  assert (MR : exists R3, remap (rl R2 target) R2 target target 0 = Some R3 /\ length R3 = length R2 /\
    (forall a b, a < n - 1 -> slot R3 a b = option_map (retgt De target back (ren target back a) b) (slot R1 (ren target back a) b)) /\
    (forall a, a < n - 1 -> rl R3 a = rl R1 (ren target back a))).
  { destruct (Nat.lt_ge_cases target back) as [Htb|Htb].
    - pose proof (move_remap De R1 target R2 LKe) as MR. cbn zeta in MR. rewrite N1 in MR. fold back in MR.
      apply MR; auto; try lia.
      + intros a b Ha. unfold slot. rewrite SR2 by auto. reflexivity.
      + intros a Ha. unfold rl. rewrite SR2 by auto. reflexivity.
    - exists R2. replace (rl R2 target) with 0 by (unfold rl; rewrite nth_overflow by (unfold back in Htb; lia); reflexivity).
      split; [reflexivity|]. split; [reflexivity|]. split.
      + intros a b Ha. unfold slot at 1. rewrite SR2 by auto. fold (slot R1 (ren target back a) b). destruct (slot R1 (ren target back a) b) as [[[t w] r]|] eqn:Q; [|reflexivity].
        cbn. unfold retgt. cbn. destruct (De (ren target back a) b) eqn:QD; [reflexivity|]. cbn [negb andb].
        destruct (Nat.eqb_spec t back) as [->|]; [|reflexivity]. exfalso. apply (live_not_dead_row De R1 target _ b back w r LKe Dt Q QD). unfold back in *. lia.
      + intros a Ha. unfold rl. rewrite SR2 by auto. reflexivity. }
  destruct MR as (R3 & E3 & N3 & SL3 & RL3). rewrite E3 in E.
  destruct (rename_ok De R1 target R3 LKe ltac:(lia) Dt) as (L3 & LS3 & CN3); rewrite ?N1; fold back; auto; try (rewrite N3, N2; reflexivity).
  rewrite N1 in L3, LS3, CN3. fold back in L3, LS3, CN3.
  assert (RNn : ren target back node = node) by (unfold ren; destruct (Nat.eqb_spec node target); [lia|reflexivity]).
  assert (DR : forall a b, a < n - 1 -> dren De target back a b = (a =? node) && (b =? edge)).
  { intros a b Ha. unfold dren. destruct (Nat.eqb_spec a target) as [->|Na].
    - unfold ren. rewrite Nat.eqb_refl, Dback by (unfold back; lia). destruct (Nat.eqb_spec target node); [lia|reflexivity].
    - unfold ren. destruct (Nat.eqb_spec a target); [congruence|]. unfold De. destruct (Nat.eqb_spec a target); [congruence|reflexivity]. }
  assert (RLn : rl R3 node = rl R1 node) by (rewrite RL3 by lia; rewrite RNn; reflexivity).
  destruct (idel_ok (dren De target back) R3 node edge L3) as (R4 & E4 & N4 & RL4 & _ & _ & L4 & LS4).
  { lia. } { rewrite DR by lia. rewrite !Nat.eqb_refl. reflexivity. }
  { intro X. rewrite DR by lia. rewrite Nat.eqb_refl. cbn [andb]. apply Nat.eqb_neq. lia. }
  rewrite E4 in E.
  assert (DF : forall a b, a < n - 1 -> dsub (dren De target back) node edge a b = nodead a b).
  { intros a b Ha. unfold dsub, nodead. rewrite DR by auto. destruct ((a =? node) && (b =? edge)); reflexivity. }
  assert (LS5 : forall f u, u < n - 1 -> ls nodead R4 f u = ls De R1 (fun t w => f (renb target back t) w) (ren target back u)).
  { intros f u Hu. rewrite <- LS3 by auto. rewrite <- LS4. apply ls_D_ext. intros e _. symmetry. apply DF. auto. }
  set (h := hstep node target back).
  assert (HR : forall y, y < n - 1 -> h (ren target back y) = y).
  { intros y Hy. unfold h, hstep. destruct (Nat.eqb_spec (ren target back y) target) as [X|]; [exfalso; revert X; apply ren_neq; unfold back; lia|]. apply renb_ren. unfold back; lia. }
  assert (HL : forall x, x < n -> h x < n - 1).
  { intros x Hx. unfold h, hstep, renb. destruct (Nat.eqb_spec x target); [lia|]. destruct (Nat.eqb_spec x back); unfold back in *; lia. }
  assert (LS6 : forall f u, u < n - 1 -> ls nodead R4 f u = ls De R1 (fun t w => f (h t) w) (ren target back u)).
  { intros f u Hu. rewrite LS5 by auto. apply ls_live_ext. intros e t w r Q X. pose proof (live_not_dead_row De R1 target _ e t w r LKe Dt Q X).
    unfold h, hstep. destruct (Nat.eqb_spec t target); [congruence|reflexivity]. }
  assert (L5 : linked nodead R4).
  { apply linked_ext with (D := dsub (dren De target back) node edge); [|auto]. intros a b Hb. apply DF. apply rl_lt in Hb. lia. }
  injection E as <-. cbn [m_rows m_last m_orig m_cont]. rewrite length_removelast, !upd_length. split; [|split; [|auto]].
  - intro u. apply cntn_nodup. intro b. change (map (fun h : half => fst (fst h)) (nth u R4 [])) with (tgts (nth u R4 [])). rewrite <- ls_cb.
    destruct (Nat.lt_ge_cases u (n - 1)) as [Hu|Hu]; [|unfold ls, rl; rewrite nth_overflow by lia; cbn; lia]. rewrite LS5 by auto.
    etransitivity; [apply (ls_live_mono De R1 _ (cb (ren target back b)))|rewrite <- LEe; apply XA]. intros e t w r Q X. pose proof (live_not_dead_row De R1 target _ e t w r LKe Dt Q X) as Nt.
    unfold cb, ren, renb. destruct (Nat.eqb_spec b target) as [->|Nb].
    + destruct (Nat.eqb_spec t back) as [->|]; [rewrite Nat.eqb_refl; lia|]. destruct (Nat.eqb_spec t target); [congruence|lia].
    + destruct (Nat.eqb_spec t back) as [->|]; [|lia]. destruct (Nat.eqb_spec target b); [congruence|lia].
  - intros u t w r I Ez. apply In_nth_error in I. destruct I as [e I]. assert (Q : slot R4 u e = Some (t, w, r)) by exact I. destruct (slot_lt _ _ _ _ Q) as [Hu _].
    pose proof (ls_live_le nodead R4 fz u e t w r Q eq_refl) as W. rewrite LS5 in W by lia. unfold fz in W at 1. subst w. rewrite N.eqb_refl in W.
    assert (Z : ls De R1 (fun t w => fz (renb target back t) w) (ren target back u) = ls De R1 fz (ren target back u)) by reflexivity. rewrite Z in W. rewrite <- LEe, XC in W. lia.
Qed.
