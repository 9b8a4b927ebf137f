(* P_ContractSet2.v - contractVertexSet keeps a graph without parallel edges and without edges of weight 0.  The proofs follow P_Mutable4.v
   and P_Mutable7.v, with counts of the edges to each vertex carried along. *)
From Verif Require Import SpecCut P_Cut P_Mutable P_Mutable2 P_Mutable3 P_Mutable4 P_Mutable5 P_Mutable6 P_Mutable7 M_Mutable P_LocalSearch P_StCactus7 P_Merge P_ContractStd2.

Section Merge.
Variable inS : nat -> bool.
Variable first : nat.
Hypothesis first_in : inS first = true.

Record extra (D : dead) (m : list (option (nat * nat))) (R : list (list half)) : Prop := {
  xs_one : forall u b, (ls D R (cb b) u <= 1)%N;
  xs_map : forall t, inS t = false -> nth t m None = None -> ls D R (cb t) first = 0%N;
  xs_pos : forall u, ls D R fz u = 0%N }.

Lemma hit_extra D m m1 R R' n k t w w2 r : extra D m R -> slot R n k = Some (t, w, r) -> D n k = false -> (forall x, inS x = false -> nth x m1 None = None -> nth x m None = None) ->
  (forall f u, (ls (dadd D n k) R' f u + pairf n t w f u + pairf first t w2 f u = ls D R f u + pairf first t (w2 + w) f u)%N) ->
  extra (dadd D n k) m1 R'.
Proof.
  intros [A B P] S Dv Hm C. pose proof (ls_live_le D R fz n k t w r S Dv) as W. rewrite P in W. assert (Wz : (w <> 0)%N) by (intros ->; unfold fz in W; rewrite N.eqb_refl in W; lia). constructor.
  - intros u b. specialize (C (cb b) u). specialize (A u b). unfold pairf, cb in *. lia.
  - intros x Hx Mx. specialize (C (cb x) first). specialize (B x Hx (Hm x Hx Mx)). unfold pairf, cb in *. lia.
  - intro u. specialize (C fz u). specialize (P u). unfold pairf in C. assert (Z : fz t (w2 + w) = 0%N /\ fz first (w2 + w) = 0%N) by (unfold fz; destruct (N.eqb_spec (w2 + w) 0); [lia|auto]). destruct Z as [Z1 Z2]. rewrite Z1, Z2, P in C. destruct (u =? first), (u =? t); lia.
Qed.
Lemma red_extra D m R R' n k t w r n0 : extra D m R -> linked D R -> slot R n k = Some (t, w, r) -> D n k = false -> inS t = false -> nth t m None = None -> n <> first -> t <> first -> t <> n -> t < length m ->
  (forall f u, (ls (dadd D n k) R' f u + pairf n t w f u = ls D R f u + pairf first t w f u)%N) ->
  extra (dadd D n k) (upd m t (Some n0)) R'.
Proof.
  intros [A B P] L S Dv It Em Nf Ntf Ntn Hl C. pose proof (ls_live_le D R fz n k t w r S Dv) as W. rewrite P in W. assert (Wz : (w <> 0)%N) by (intros ->; unfold fz in W; rewrite N.eqb_refl in W; lia).
  assert (Z1 : ls D R (cb t) first = 0%N) by (apply B; auto).
  assert (Z2 : ls D R (cb first) t = 0%N).
  { destruct (N.eq_dec (ls D R (cb first) t) 0) as [|Ne]; [auto|]. destruct (ls_some _ _ _ _ Ne) as (e & t' & w' & r' & S' & D' & F). unfold cb in F. destruct (Nat.eqb_spec t' first) as [->|]; [|congruence].
    destruct (L t e first w' r' S' D') as (_ & _ & Dn & Sn). pose proof (ls_live_le D R (cb t) first r' t w' e Sn Dn) as Q. unfold cb at 1 in Q. rewrite Nat.eqb_refl in Q. lia. }
  constructor.
  - intros u b. specialize (C (cb b) u). specialize (A u b). unfold pairf in C. destruct (Nat.eqb_spec u first) as [->|Nu].
    + destruct (Nat.eqb_spec first t); [congruence|]. destruct (Nat.eqb_spec first n); [congruence|]. destruct (Nat.eq_dec b t) as [->|Nb].
      * rewrite Z1 in C. unfold cb in *. rewrite Nat.eqb_refl in C. lia.
      * unfold cb in *. destruct (Nat.eqb_spec t b); [congruence|]. lia.
    + destruct (Nat.eqb_spec u t) as [->|Nt].
      * destruct (Nat.eqb_spec t n); [congruence|]. destruct (Nat.eq_dec b first) as [->|Nb].
        -- rewrite Z2 in C. unfold cb in *. rewrite Nat.eqb_refl in C. lia.
        -- unfold cb in *. destruct (Nat.eqb_spec first b); [congruence|]. lia.
      * lia.
  - intros x Hx Mx. assert (Nx : x <> t) by (intros ->; rewrite nth_upd_eq in Mx by auto; discriminate Mx). rewrite nth_upd_neq in Mx by auto. specialize (C (cb x) first). specialize (B x Hx Mx). unfold pairf, cb in *. destruct (Nat.eqb_spec first t); [congruence|]. destruct (Nat.eqb_spec t x); [congruence|]. destruct (first =? n), (first =? first); lia.
  - intro u. specialize (C fz u). specialize (P u). unfold pairf in C. assert (Z : fz t w = 0%N /\ fz first w = 0%N) by (unfold fz; destruct (N.eqb_spec w 0); [lia|auto]). destruct Z as [Y1 Y2]. rewrite Y1, Y2, P in C. destruct (u =? first), (u =? t); lia.
Qed.

Lemma merge_vertex_more n0 T len n cnt : forall R deg ne m k D rem,
  minvr inS first n0 T len D R deg m -> extra D m R -> inS n = true -> n <> first -> n < n0 -> first < n0 -> k + cnt = len n ->
  (forall j, j < k -> D n j = true) -> (forall j, k <= j < len n -> D n j = into inS T n j) ->
  ne = (bsum n0 (ls D R fc) + cnt_in inS T n k cnt + rem)%N ->
  exists m' R' deg' ne' D', merge_vertex cnt inS first n k m (R, deg, ne) = Some (m', (R', deg', ne')) /\
    minvr inS first n0 T len D' R' deg' m' /\ (forall j, j < len n -> D' n j = true) /\ (forall a b, a <> n -> D' a b = D a b) /\
    ne' = (bsum n0 (ls D' R' fc) + rem)%N /\ same_sums inS first n0 D D' R R' /\ extra D' m' R'.
Proof.
  induction cnt as [|cnt IH]; intros R deg ne m k D rem I XX In Nf Hn Hf Hk Dlt Dge NE.
  - exists m, R, deg, ne, D. split; [reflexivity|]. split; [auto|]. split; [intros j Hj; apply Dlt; lia|]. split; [auto|].
    split; [rewrite NE; unfold cnt_in; simpl; lia|]. split; [split; auto|auto].
  - cbn [merge_vertex]. destruct (slot_some R n k) as (t & w & r & Sn).
    { rewrite (mi_len _ _ _ _ _ _ _ _ _ I n In Nf). lia. }
    rewrite Sn. assert (Tn : T n k = Some t) by (rewrite <- (mi_T _ _ _ _ _ _ _ _ _ I n k In Nf); unfold tgt_of; rewrite Sn; reflexivity).
    assert (INTO : into inS T n k = inS t) by (unfold into; rewrite Tn; reflexivity).
    destruct (inS t) eqn:It.
    + (* an edge inside the set *)
      assert (Dk : D n k = true) by (rewrite Dge by lia; auto).
      destruct (IH R deg (ne - 1)%N m (S k) D rem I XX In Nf Hn Hf ltac:(lia)) as (m' & R' & deg' & ne' & D' & E & I' & X).
      { intros j Hj. destruct (Nat.eq_dec j k) as [->|]; [auto|apply Dlt; lia]. }
      { intros j Hj. apply Dge. lia. }
      { rewrite NE. unfold cnt_in. cbn [seq sumN]. rewrite INTO. lia. }
      exists m', R', deg', ne', D'. auto.
    + assert (Dk : D n k = false) by (rewrite Dge by lia; auto).
      destruct (mi_link _ _ _ _ _ _ _ _ _ I n k t w r Sn Dk) as [Ht [Nt [_ St]]]. rewrite (mi_n _ _ _ _ _ _ _ _ _ I) in Ht.
      assert (Dt : forall b, D t b = false) by (intro b; apply (mi_out _ _ _ _ _ _ _ _ _ I); auto).
      assert (Ntf : t <> first) by congruence.
      assert (DX : forall j, j < S k -> dadd D n k n j = true).
      { intros j Hj. unfold dadd. destruct (Nat.eqb_spec j k) as [->|]; [rewrite Nat.eqb_refl, orb_true_r; reflexivity|]. rewrite Dlt by lia. reflexivity. }
      assert (DY : forall j, S k <= j < len n -> dadd D n k n j = into inS T n j).
      { intros j Hj. unfold dadd. destruct (Nat.eqb_spec j k); [lia|]. rewrite andb_false_r, orb_false_r. apply Dge. lia. }
      assert (DZ : forall a b, a <> n -> dadd D n k a b = D a b).
      { intros a b Na. unfold dadd. destruct (Nat.eqb_spec a n); [congruence|]. rewrite orb_false_r. reflexivity. }
      assert (CI : cnt_in inS T n k (S cnt) = cnt_in inS T n (S k) cnt) by (unfold cnt_in; cbn [seq sumN]; rewrite INTO; lia).
      destruct (nth t m None) as [[rev ed2]|] eqn:Em.
      * destruct (mi_map _ _ _ _ _ _ _ _ _ I t rev ed2 Em) as [w2 Sf].
        destruct (hit_ok D R first n k t w r ed2 rev w2 (mi_link _ _ _ _ _ _ _ _ _ I) Sn Dk Nf Sf (mi_first _ _ _ _ _ _ _ _ _ I ed2) Dt)
          as (R1 & R2 & R' & E1 & E2 & E3 & RT & N' & RL' & SL' & SF' & LK & C & CC).
        pose proof (hit_all D R first n k t w r ed2 rev w2 R1 R2 R' (mi_link _ _ _ _ _ _ _ _ _ I) Sn Dk Nf Sf (mi_first _ _ _ _ _ _ _ _ _ I ed2) Dt E1 E2 E3) as CA.
        rewrite E1, E2, E3. change (length (nth t R2 [])) with (rl R2 t). rewrite RT.
        set (m1 := if rl R t - 1 =? rev then upd m t (Some (r, ed2)) else m).
        assert (M1 : minv first m1 R').
        { intros t' rev' ed' Hm.
          assert (HH : t' <> t -> nth t' m None = Some (rev', ed')).
          { intro N. unfold m1 in Hm. destruct (_ =? rev); [rewrite nth_upd_neq in Hm|]; auto. }
          destruct (Nat.eq_dec t' t) as [->|N].
          - assert (Hlt : t < length m) by (rewrite (mi_mlen _ _ _ _ _ _ _ _ _ I); auto).
            unfold m1 in Hm. destruct (Nat.eqb_spec (rl R t - 1) rev) as [Er|Er].
            + rewrite nth_upd_eq in Hm by auto. injection Hm as <- <-. rewrite SF'. exists (w2 + w)%N.
              destruct (Nat.eqb_spec rev (rl R t - 1)); [reflexivity|congruence].
            + rewrite Em in Hm. injection Hm as <- <-. rewrite SF'. exists (w2 + w)%N.
              destruct (Nat.eqb_spec rev (rl R t - 1)); [congruence|reflexivity].
          - destruct (mi_map _ _ _ _ _ _ _ _ _ I t' rev' ed' (HH N)) as [w' S']. exists w'.
            rewrite SL'; [|auto|intros _ ->; rewrite Sf in S'; congruence]. rewrite S'. cbn. unfold moved. cbn.
            destruct (Nat.eqb_spec t' t); [congruence|]. rewrite andb_false_r. reflexivity. }
        assert (LM1 : length m1 = n0) by (unfold m1; destruct (_ =? rev); rewrite ?upd_length; apply (mi_mlen _ _ _ _ _ _ _ _ _ I)).
        destruct (IH R' (deg_add deg first w) (ne - 2)%N m1 (S k) (dadd D n k) rem) as (m' & R3 & deg' & ne' & D' & E & I' & X1 & X2 & X3 & X4 & X9); auto; try lia.
        { constructor; auto.
          - rewrite N'. apply (mi_n _ _ _ _ _ _ _ _ _ I).
          - intros a b Ha. rewrite DZ by congruence. apply (mi_out _ _ _ _ _ _ _ _ _ I). auto.
          - intro b. rewrite DZ by auto. apply (mi_first _ _ _ _ _ _ _ _ _ I).
          - intros a b t' Ha Na HT Ht'. unfold dadd. rewrite (mi_dead _ _ _ _ _ _ _ _ _ I a b t'); auto.
          - intros a b Ha Na. rewrite <- (mi_T _ _ _ _ _ _ _ _ _ I a b Ha Na). apply tgt_moved with (D := D) (v := t) (l := rl R t - 1) (e := r).
            apply SL'; congruence.
          - intros a Ha Na. rewrite RL'. destruct (Nat.eqb_spec a t); [congruence|]. apply (mi_len _ _ _ _ _ _ _ _ _ I); auto.
          - unfold deg_add. rewrite upd_length. apply (mi_dlen _ _ _ _ _ _ _ _ _ I).
          - unfold deg_add. rewrite nth_upd_eq by (rewrite (mi_dlen _ _ _ _ _ _ _ _ _ I); auto). rewrite (mi_dfirst _ _ _ _ _ _ _ _ _ I).
            specialize (C fd first lin_fd). unfold pairf in C. rewrite Nat.eqb_refl in C. destruct (Nat.eqb_spec first n); [congruence|].
            destruct (Nat.eqb_spec first t); [congruence|]. unfold fd in *. lia.
          - intros u Iu Hu. unfold deg_add. rewrite nth_upd_neq by congruence. rewrite (mi_dout _ _ _ _ _ _ _ _ _ I) by auto.
            specialize (C fd u lin_fd). unfold pairf in C. destruct (Nat.eqb_spec u n); [congruence|]. destruct (Nat.eqb_spec u first); [congruence|].
            destruct (u =? t); unfold fd in *; lia. }
        { apply (hit_extra D m m1 R R' n k t w w2 r XX Sn Dk); [|exact CA]. intros x Hx Q. unfold m1 in Q. destruct (_ =? rev); [|auto]. destruct (Nat.eq_dec x t) as [->|]; [rewrite nth_upd_eq in Q by (rewrite (mi_mlen _ _ _ _ _ _ _ _ _ I); auto); discriminate Q|]. rewrite nth_upd_neq in Q by auto. auto. }
        { rewrite NE, CI.
          assert (P : (bsum n0 (ls (dadd D n k) R' fc) + 2 = bsum n0 (ls D R fc))%N).
          { rewrite <- (pairf_count n0 n t w) by auto. rewrite <- bsum_add. apply bsum_ext. intros i _. apply CC. }
          lia. }
        exists m', R3, deg', ne', D'. split; [auto|]. split; [auto|]. split; [auto|].
        split; [intros a b Na; rewrite X2 by auto; apply DZ; auto|]. split; [auto|].
        destruct (step_sums inS first first_in n0 D (dadd D n k) R R' n t w Hn Hf In It C) as [S1 S2]. destruct X4 as [X4 X5].
        split; [|exact X9]. split; [intros f Lf; rewrite X4, S1; auto|intros f u Lf Iu; rewrite X5, S2; auto].
      * destruct (redirect_ok D R first n k t w r (mi_link _ _ _ _ _ _ _ _ _ I) Sn Dk Nf) as (R1 & R2 & E1 & E2 & N' & RL' & SL' & LK & C); auto.
        { rewrite (mi_n _ _ _ _ _ _ _ _ _ I). auto. } { apply (mi_first _ _ _ _ _ _ _ _ _ I). }
        change (length (nth first R [])) with (rl R first). rewrite E1, E2. set (R' := push R2 first (t, w, r)) in *.
        set (m1 := upd m t (Some (r, rl R first))).
        assert (C2 : forall f u, lin f -> (ls (dadd D n k) R' f u + pairf n t w f u = ls D R f u + pairf first t w f u)%N) by (intros; apply C).
        assert (SLf : forall b, slot R' first b = if b =? rl R first then Some (t, w, r) else slot R first b).
        { intro b. rewrite SL'. destruct (Nat.eqb_spec first t); [congruence|]. rewrite Nat.eqb_refl. reflexivity. }
        assert (M1 : minv first m1 R').
        { intros t' rev' ed' Hm. rewrite SLf. destruct (Nat.eq_dec t' t) as [->|N].
          - unfold m1 in Hm. rewrite nth_upd_eq in Hm by (rewrite (mi_mlen _ _ _ _ _ _ _ _ _ I); auto). injection Hm as <- <-.
            rewrite Nat.eqb_refl. eauto.
          - unfold m1 in Hm. rewrite nth_upd_neq in Hm by auto. destruct (mi_map _ _ _ _ _ _ _ _ _ I t' rev' ed' Hm) as [w' S'].
            pose proof (slot_lt _ _ _ _ S'). destruct (Nat.eqb_spec ed' (rl R first)); [lia|]. eauto. }
        assert (SLo : forall a b, inS a = true -> a <> first -> slot R' a b = slot R a b).
        { intros a b Ha Na. rewrite SL'. destruct (Nat.eqb_spec a t); [congruence|]. destruct (Nat.eqb_spec a first); [congruence|]. reflexivity. }
        destruct (IH R' (deg_add deg first w) ne m1 (S k) (dadd D n k) rem) as (m' & R3 & deg' & ne' & D' & E & I' & X1 & X2 & X3 & X4 & X9); auto; try lia.
        { constructor; auto.
          - rewrite N'. apply (mi_n _ _ _ _ _ _ _ _ _ I).
          - unfold m1. rewrite upd_length. apply (mi_mlen _ _ _ _ _ _ _ _ _ I).
          - intros a b Ha. rewrite DZ by congruence. apply (mi_out _ _ _ _ _ _ _ _ _ I). auto.
          - intro b. rewrite DZ by auto. apply (mi_first _ _ _ _ _ _ _ _ _ I).
          - intros a b t' Ha Na HT Ht'. unfold dadd. rewrite (mi_dead _ _ _ _ _ _ _ _ _ I a b t'); auto.
          - intros a b Ha Na. rewrite <- (mi_T _ _ _ _ _ _ _ _ _ I a b Ha Na). unfold tgt_of. rewrite SLo by auto. reflexivity.
          - intros a Ha Na. rewrite RL'. destruct (Nat.eqb_spec a first); [congruence|]. apply (mi_len _ _ _ _ _ _ _ _ _ I); auto.
          - unfold deg_add. rewrite upd_length. apply (mi_dlen _ _ _ _ _ _ _ _ _ I).
          - unfold deg_add. rewrite nth_upd_eq by (rewrite (mi_dlen _ _ _ _ _ _ _ _ _ I); auto). rewrite (mi_dfirst _ _ _ _ _ _ _ _ _ I).
            specialize (C fd first). unfold pairf in C. rewrite Nat.eqb_refl in C. destruct (Nat.eqb_spec first n); [congruence|].
            destruct (Nat.eqb_spec first t); [congruence|]. unfold fd in *. lia.
          - intros u Iu Hu. unfold deg_add. rewrite nth_upd_neq by congruence. rewrite (mi_dout _ _ _ _ _ _ _ _ _ I) by auto.
            specialize (C fd u). unfold pairf in C. destruct (Nat.eqb_spec u n); [congruence|]. destruct (Nat.eqb_spec u first); [congruence|].
            destruct (u =? t); unfold fd in *; lia. }
        { apply (red_extra D m R R' n k t w r (r, rl R first) XX (mi_link _ _ _ _ _ _ _ _ _ I) Sn Dk It Em Nf Ntf); auto; try congruence; rewrite (mi_mlen _ _ _ _ _ _ _ _ _ I); auto. }
        { rewrite NE, CI.
          assert (P : (bsum n0 (ls (dadd D n k) R' fc) + 2 = bsum n0 (ls D R fc) + 2)%N).
          { rewrite <- (pairf_count n0 n t w) at 1 by auto. rewrite <- (pairf_count n0 first t w) by auto. rewrite <- !bsum_add. apply bsum_ext. intros i _. apply C. }
          lia. }
        exists m', R3, deg', ne', D'. split; [auto|]. split; [auto|]. split; [auto|].
        split; [intros a b Na; rewrite X2 by auto; apply DZ; auto|]. split; [auto|].
        destruct (step_sums inS first first_in n0 D (dadd D n k) R R' n t w Hn Hf In It C2) as [S1 S2]. destruct X4 as [X4 X5].
        split; [|exact X9]. split; [intros f Lf; rewrite X4, S1; auto|intros f u Lf Iu; rewrite X5, S2; auto].
Qed.

Lemma merge_vertices_more n0 T len vs : forall R deg ne m D,
  minvr inS first n0 T len D R deg m -> extra D m R -> first < n0 -> NoDup vs ->
  (forall n, In n vs -> inS n = true /\ n <> first /\ n < n0) ->
  (forall n j, In n vs -> j < len n -> D n j = into inS T n j) ->
  ne = (bsum n0 (ls D R fc) + sumN (fun n => cnt_in inS T n 0 (len n)) vs)%N ->
  exists R' deg' ne' D', merge_vertices vs inS first m (R, deg, ne) = Some (R', deg', ne') /\
    (exists m', minvr inS first n0 T len D' R' deg' m' /\ extra D' m' R') /\ (forall n j, In n vs -> j < len n -> D' n j = true) /\
    (forall a b, ~ In a vs -> D' a b = D a b) /\
    ne' = bsum n0 (ls D' R' fc) /\ same_sums inS first n0 D D' R R'.
Proof.
  induction vs as [|n vs IH]; intros R deg ne m D I XX Hf ND Hin Dn NE.
  - exists R, deg, ne, D. split; [reflexivity|]. split; [eauto|]. split; [intros n j []|]. split; [auto|].
    split; [rewrite NE; simpl; lia|]. split; auto.
  - cbn [merge_vertices fst]. destruct (Hin n (or_introl eq_refl)) as [In [Nf Hn]]. inversion ND as [|? ? Nin ND']. subst.
    change (length (nth n R [])) with (rl R n). rewrite (mi_len _ _ _ _ _ _ _ _ _ I n In Nf).
    destruct (merge_vertex_more n0 T len n (len n) R deg (bsum n0 (ls D R fc) + sumN (fun n => cnt_in inS T n 0 (len n)) (n :: vs))%N m 0 D
                (sumN (fun n => cnt_in inS T n 0 (len n)) vs)) as (m1 & R1 & deg1 & ne1 & D1 & E & I1 & X1 & X2 & X3 & X4 & X9); auto; try lia.
    { intros j Hj. apply Dn; [left; auto|lia]. } { cbn [sumN]. lia. }
    rewrite E.
    destruct (IH R1 deg1 ne1 m1 D1) as (R' & deg' & ne' & D' & E' & M' & Y1 & Y2 & Y3 & Y4); auto.
    { intros x Hx. apply Hin. right. auto. }
    { intros x j Hx Hj. rewrite X2 by congruence. apply Dn; [right; auto|auto]. }
    exists R', deg', ne', D'. split; [auto|]. split; [auto|]. split.
    { intros x j [->|Hx] Hj; [rewrite Y2 by auto; apply X1; auto|apply Y1; auto]. }
    split.
    { intros a b Na. rewrite Y2 by (intro; apply Na; right; auto). apply X2. intros ->. apply Na. left. auto. }
    split; [auto|]. destruct X4 as [A1 A2], Y4 as [B1 B2]. split; [intros f Lf; rewrite B1, A1; auto|intros f u Lf Iu; rewrite B2, A2; auto].
Qed.

End Merge.

Lemma set_rev_tgt R v e r R' : set_rev R v e r = Some R' -> forall a b, tgt_of R' a b = tgt_of R a b.
Proof.
  unfold set_rev. destruct (slot R v e) as [[[t w] r0]|] eqn:S; [|discriminate]. intros E a b. injection E as <-. destruct (slot_lt _ _ _ _ S) as [Hv He].
  unfold tgt_of. rewrite slot_rset by auto. destruct (Nat.eqb_spec a v) as [->|]; [|reflexivity]. destruct (Nat.eqb_spec b e) as [->|]; [|reflexivity]. cbn [andb]. rewrite S. reflexivity.
Qed.
Lemma split_map inS first cnt : forall k edges m R deg ne edges' m' R' deg' ne', split_first cnt inS first k edges m (R, deg, ne) = Some (edges', m', (R', deg', ne')) ->
  length m' = length m /\ (forall t, nth t m None <> None -> nth t m' None <> None) /\
  (forall j t, k <= j < k + cnt -> tgt_of R first j = Some t -> inS t = false -> t < length m -> nth t m' None <> None).
Proof.
  induction cnt as [|cnt IH]; intros k edges m R deg ne edges' m' R' deg' ne' E; cbn [split_first] in E.
  - injection E as <- <- <- <- <-. split; [auto|]. split; [auto|]. intros; lia.
  - destruct (slot R first k) as [[[t w] r]|] eqn:S; [|discriminate E]. assert (Tk : tgt_of R first k = Some t) by (unfold tgt_of; rewrite S; reflexivity). destruct (inS t) eqn:It.
    + destruct (IH _ _ _ _ _ _ _ _ _ _ _ E) as (A & B & C). split; [auto|]. split; [auto|]. intros j x Hj Tj Ix Hx. destruct (Nat.eq_dec j k) as [->|]; [congruence|]. apply (C j x); auto. lia.
    + destruct (set_rev R t r (length edges)) as [R1|] eqn:E1; [|discriminate E]. destruct (IH _ _ _ _ _ _ _ _ _ _ _ E) as (A & B & C). set (m1 := match nth t m None with None => upd m t (Some (r, length edges)) | Some _ => m end) in *.
      assert (L1 : length m1 = length m) by (unfold m1; destruct (nth t m None); rewrite ?upd_length; auto).
      assert (M1 : forall x, nth x m None <> None -> nth x m1 None <> None).
      { intros x Hx. unfold m1. destruct (nth t m None) eqn:Q; [auto|]. destruct (Nat.eq_dec x t) as [->|]; [congruence|]. rewrite nth_upd_neq by auto. auto. }
      split; [congruence|]. split; [intros; apply B, M1; auto|]. intros j x Hj Tj Ix Hx. destruct (Nat.eq_dec j k) as [->|].
      * assert (x = t) by congruence. subst x. apply B. unfold m1. destruct (nth t m None) eqn:Q; [congruence|]. rewrite nth_upd_eq by auto. discriminate.
      * apply (C j x); auto; [lia| |lia]. rewrite (set_rev_tgt _ _ _ _ _ E1). auto.
Qed.
Lemma drop_shape : forall vs first G G', drop_vertices vs first G = Some G' -> m_last G' = m_last G - length vs /\ m_orig G' = m_orig G /\ length (m_cont G') = length (m_cont G) - length vs.
Proof.
  induction vs as [|v vs IH]; intros first G G' E; cbn [drop_vertices] in E; [injection E as <-; cbn [length]; rewrite !Nat.sub_0_r; auto|].
  destruct (v <? m_n G - 1).
  - destruct (remap _ _ _ _ _) as [R2|]; [|discriminate E]. destruct (IH _ _ _ E) as (A & B & C). cbn [m_last m_orig m_cont] in A, B, C. rewrite length_removelast, !upd_length in C. cbn [length]. rewrite A, B, C. split; [lia|]. split; [auto|lia].
  - destruct (IH _ _ _ E) as (A & B & C). cbn [m_last m_orig m_cont] in A, B, C. rewrite length_removelast, !upd_length in C. cbn [length]. rewrite A, B, C. split; [lia|]. split; [auto|lia].
Qed.

Theorem contract_set_keeps G vset G' : mvalid G -> NoDup vset -> length (m_part G) = m_n G -> length (m_cut G) = m_n G -> no_parallel (m_rows G) -> no_zero (m_rows G) ->
  m_contract_set G vset = Some G' ->
  no_parallel (m_rows G') /\ no_zero (m_rows G') /\ (m_last G = m_n G -> m_last G' = m_n G') /\ m_orig G' = m_orig G /\ (length (m_cont G) = m_n G -> length (m_cont G') = m_n G').
Proof.
  intros MV ND LP LC NP PW. set (n := m_n G) in *. unfold m_contract_set. fold n. set (vec := filter (fun i => i <? n) vset).
  assert (Hvec : forall u, In u vec <-> u < n /\ In u vset).
  { intro u. unfold vec. rewrite filter_In, Nat.ltb_lt. tauto. }
  assert (NDv : NoDup vec) by (apply NoDup_filter; auto).
  destruct vec as [|x xs] eqn:EV; [intro E; injection E as <-; auto|].
  destruct xs as [|y xs'] eqn:EX; [intro E; injection E as <-; auto|].
  rewrite <- EX in *. clear EX. rewrite <- EV in *. clear y xs'. intro E.
  destruct MV as [V [DG CN]]. set (R := m_rows G) in *. assert (NR : length R = n) by reflexivity.
  pose proof (proj2 (linked_valid R) V) as L. apply deg_ls in DG. destruct DG as [LD DG]. apply cnt_ls in CN.
  set (first := fold_left Nat.min xs x) in *. set (rest := filter (fun i => negb (i =? first)) vec) in *. set (inS := fun t => existsb (Nat.eqb t) vset) in *.
  assert (Ifirst : In first vec /\ forall u, In u vec -> first <= u).
  { destruct (fold_min_le xs x) as [A [B C]]. fold first in A, B, C. rewrite EV. split.
    - destruct C as [C|C]; [left; auto|right; auto].
    - intros u [<-|Hu]; auto. }
  destruct Ifirst as [Ifirst Mfirst]. assert (Hf : first < n) by (apply Hvec in Ifirst; tauto).
  assert (HS : forall u, inS u = true <-> In u vset) by (intro u; apply existsb_eqb_In).
  assert (first_in : inS first = true) by (apply HS; apply Hvec in Ifirst; tauto).
  assert (Hrest : forall u, In u rest <-> u < n /\ inS u = true /\ u <> first).
  { intro u. unfold rest. rewrite filter_In, Hvec, HS, negb_true_iff, Nat.eqb_neq. tauto. }
  assert (Hrest2 : forall u, In u rest -> first < u < n).
  { intros u Hu. pose proof (proj1 (Hrest u) Hu) as [A [B C]]. assert (first <= u) by (apply Mfirst, Hvec; rewrite <- HS; auto). lia. }
  assert (NDr : NoDup rest) by (apply NoDup_filter; rewrite EV; rewrite <- EV; auto).
  (* phase 1 *)
  destruct (split_first_ok inS first R first_in L ltac:(lia) n (rl R first) 0 [] (repeat None n) R (m_deg G) (m_ne G)) as (m1 & R1 & deg1 & E1 & LM1 & MI1 & N1 & RL1 & SL1 & LD1 & DO1 & DF1); auto.
  { apply repeat_length. } { intros t r i H. rewrite nth_repeat in H. discriminate. }
  { intros a b. destruct (slot R a b) as [[[t w] r]|]; [|reflexivity]. cbn. unfold relk. cbn [fst snd]. destruct (Nat.ltb_spec r 0); [lia|]. rewrite andb_false_r. reflexivity. }
  pose proof (split_map _ _ _ _ _ _ _ _ _ _ _ _ _ _ E1) as (_ & _ & MF1).
  change (length (nth first R [])) with (rl R first) in E. rewrite E1 in E. clear E1.
  set (row := nth first R []) in *. set (ne1 := (m_ne G - N.of_nat (length (filter (fun h => negb (keeph inS h)) (skipn 0 row))))%N).
  destruct (split_linked inS first R first_in L ltac:(lia) R1 N1 RL1 SL1) as (LK1 & LS1 & T1 & RLa & NN1). fold row in LK1, LS1, T1, RLa, NN1.
  set (R1' := upd R1 first (filter (keeph inS) row)) in *.
  (* phase 2 *)
  set (T := tgt_of R). set (len := rl R). set (Da := D0 inS R) in *. set (Db := D1 inS first R) in *.
  assert (SKROW : skipn 0 row = row) by reflexivity. rewrite SKROW in *.
  assert (LSF : forall f, ls Da R f first = sumN (fun h => f (fst (fst h)) (snd (fst h))) (filter (keeph inS) row)).
  { intro f. rewrite sumN_filter, (@sumN_bsum half _ _ (0, 0%N, 0)). unfold ls, rl. fold row. apply bsum_ext. intros i Hi. unfold val.
    change (slot R first i) with (nth_error row i). destruct (nth_error row i) as [[[t w] r]|] eqn:Q; [|reflexivity].
    unfold Da. rewrite (D0_slot inS R first i t w r Q), first_in. unfold keeph. cbn. destruct (inS t); reflexivity. }
  assert (I1 : minvr inS first n T len Db R1' deg1 m1).
  { constructor; auto; try lia.
    - intros t rev ed2 Hm. destruct (MI1 t rev ed2 Hm) as [w Hw]. exists w. unfold R1'. rewrite slot_upd by lia. rewrite Nat.eqb_refl. exact Hw.
    - intros a b Ha. unfold Db, D1, D0. rewrite Ha. apply andb_false_r.
    - intro b. unfold Db, D1. rewrite Nat.eqb_refl. reflexivity.
    - intros a b t Ha Na HT Ht. unfold Db, D1, D0, into. fold T. rewrite HT, Ha, Ht. destruct (Nat.eqb_spec a first); [congruence|reflexivity].
    - rewrite DF1 by lia. rewrite LS1, LSF. unfold fd. rewrite DG by lia. rewrite ls_nodead. unfold fd. fold row.
      pose proof (sumN_split (fun h : half => snd (fst h)) (keeph inS) row) as Q1.
      assert (Q2 : sumN (fun h : half => snd (fst h)) (filter (fun h => negb (keeph inS h)) row) = sumN (fun x : half => if keeph inS x then 0%N else snd (fst x)) row).
      { rewrite sumN_filter. apply sumN_ext. intros h _. destruct (keeph inS h); reflexivity. }
      pose proof (sumN_filter (fun h : half => snd (fst h)) (keeph inS) row) as Q3. unfold half in *. lia.
    - intros u Iu Hu. rewrite DO1 by congruence. rewrite DG by auto. rewrite LS1. apply ls_D_ext. intros e _. unfold Da, D0. rewrite Iu. reflexivity. }
  assert (X1 : extra inS first Db m1 R1').
  { constructor.
    - intros u b. rewrite LS1. eapply N.le_trans; [apply ls_dead_le|]. rewrite ls_cb. apply cntn_nodup. apply (NP u).
    - intros t It Mt. rewrite LS1. destruct (N.eq_dec (ls Da R (cb t) first) 0) as [|Ne]; [auto|]. exfalso. destruct (ls_some _ _ _ _ Ne) as (e & t' & w & r & S & D & F). unfold cb in F. destruct (Nat.eqb_spec t' t) as [->|]; [|congruence].
      destruct (L first e t w r S eq_refl) as [Ht _]. destruct (slot_lt _ _ _ _ S) as [_ He]. revert Mt. apply (MF1 e t); auto; [lia|unfold tgt_of; rewrite S; reflexivity|rewrite repeat_length; lia].
    - intro u. rewrite LS1. destruct (N.eq_dec (ls Da R fz u) 0) as [|Ne]; [auto|]. exfalso. destruct (ls_some _ _ _ _ Ne) as (e & t & w & r & S & D & F). unfold fz in F. destruct (N.eqb_spec w 0) as [->|]; [|congruence]. eapply PW; [eapply nth_error_In; exact S|reflexivity]. }
  assert (CNT : ne1 = (bsum n (ls Db R1' fc) + sumN (fun u => cnt_in inS T u 0 (len u)) rest)%N).
  { unfold ne1. rewrite CN, NR.
    rewrite (bsum_ext n (ls nodead R fc) (fun u => ls Db R1' fc u + (if inS u then cnt_in inS T u 0 (len u) else 0))%N).
    - rewrite bsum_add. rewrite (set_sum inS n (first :: rest) (fun u => cnt_in inS T u 0 (len u))).
      + cbn [sumN].
        assert (CF : cnt_in inS T first 0 (len first) = N.of_nat (length (filter (fun h => negb (keeph inS h)) row))).
        { rewrite <- sumN_const1, sumN_filter, (@sumN_bsum half _ _ (0, 0%N, 0)). unfold cnt_in, len, rl. fold row. apply bsum_ext. intros i Hi.
          unfold into, T, tgt_of. change (slot R first i) with (nth_error row i). destruct (nth_error row i) as [[[t w] r]|]; [|reflexivity].
          cbn. unfold keeph. cbn. rewrite negb_involutive. reflexivity. }
        rewrite CF, ?SKROW. unfold half in *. lia.
      + constructor; [|auto]. intro X. apply Hrest in X. tauto.
      + intro u. cbn. rewrite Hrest. split; [intros [<-|X]; tauto|]. intros [A B]. destruct (Nat.eq_dec u first); [left; auto|right; auto].
    - intros u Hu. rewrite LS1. destruct (inS u) eqn:Iu.
      + unfold ls, cnt_in, len. change (sumN (fun j => if into inS T u j then 1%N else 0%N) (seq 0 (rl R u))) with (bsum (rl R u) (fun j => if into inS T u j then 1%N else 0%N)).
        rewrite <- bsum_add. apply bsum_ext. intros i Hi. unfold val, nodead. destruct (slot_some R u i Hi) as (t & w & r & Q). rewrite Q.
        unfold Da. rewrite (D0_slot inS R u i t w r Q), Iu. unfold into, T, tgt_of. rewrite Q. cbn. destruct (inS t); reflexivity.
      + rewrite N.add_0_r. apply ls_D_ext. intros e _. unfold Da, D0. rewrite Iu. reflexivity. }
  destruct (merge_vertices_more inS first first_in n T len rest R1' deg1 ne1 m1 Db I1 X1 Hf NDr) as (R2 & deg2 & ne2 & D2 & E2 & [m2 [I2 [XA XB XC]]] & DD2 & DO2 & NE2 & SS1 & SS2); auto.
  { intros u Hu. apply Hrest in Hu. tauto. }
  { intros u j Hu Hj. apply Hrest in Hu. destruct Hu as [A [B C]]. unfold Db, D1, D0. rewrite B. destruct (Nat.eqb_spec u first); [congruence|reflexivity]. }
  assert (EE : match merge_vertices rest inS first m1 (R1', deg1, ne1) with None => None | Some (rows2, deg2, ne2) => drop_vertices (sort_desc rest) first (with_rows G rows2 deg2 ne2) end = Some G') by exact E. clear E. rename EE into E.
  rewrite E2 in E.
  (* phase 3 *)
  set (vs := sort_desc rest).
  assert (Hvs : forall u, In u vs <-> In u rest).
  { intro u. split; apply Permutation_in; [apply sort_desc_perm|apply Permutation_sym, sort_desc_perm]. }
  assert (N2 : length R2 = n) by apply (mi_n _ _ _ _ _ _ _ _ _ I2).
  assert (DM : forall a b, b < rl R2 a -> D2 a b = mem vs a b).
  { intros a b Hb. unfold mem. destruct (existsb (Nat.eqb a) vs) eqn:Q.
    - apply existsb_eqb_In in Q. apply Hvs in Q. apply DD2; [auto|]. pose proof (proj1 (Hrest a) Q) as [A [B C]]. rewrite <- (mi_len _ _ _ _ _ _ _ _ _ I2 a B C). auto.
    - apply mem_false in Q. rewrite Hvs in Q. rewrite DO2 by auto. unfold Db, D1. destruct (Nat.eqb_spec a first); [reflexivity|]. cbn [negb andb].
      unfold D0. destruct (inS a) eqn:Ia; [|reflexivity]. exfalso. apply Q, Hrest. split; [|auto]. apply rl_lt in Hb. lia. }
  assert (LSM : forall f u, ls D2 R2 f u = ls (mem vs) R2 f u) by (intros f u; apply ls_D_ext; intros; apply DM; auto).
  assert (LKM : linked (mem vs) R2) by (apply linked_ext with (D := D2); [auto|apply (mi_link _ _ _ _ _ _ _ _ _ I2)]).
  destruct (drop_vertices_ok first vs (with_rows G R2 deg2 ne2)) as (G3 & f & rho & E3 & N3 & L3 & LS3 & LD3 & LP3 & LC3 & VV3 & CN3 & NE3 & NO3 & RH & F1 & F2 & F3 & F4 & GR3); unfold with_rows, m_n; proj; try rewrite N2; auto.
  { apply sort_desc_sorted. auto. } { intros v Hv. apply Hrest2, Hvs. auto. } { apply (mi_dlen _ _ _ _ _ _ _ _ _ I2). }
  unfold m_n, with_rows in VV3, N3, LS3, CN3, NE3, RH, F1, F2, GR3; proj. rewrite N2 in N3, CN3, RH, F1, F2, GR3. fold (m_n G3) in VV3, N3, LS3, CN3, RH, F1, GR3.
  set (n' := m_n G3) in *. set (R' := m_rows G3) in *. assert (NR' : length R' = n') by reflexivity.
  assert (RHO : forall u, u < n' -> rho u < n /\ ~ In (rho u) rest /\ f (rho u) = u).
  { intros u Hu. destruct (RH u Hu) as [A [B C]]. rewrite Hvs in B. auto. }
  assert (OUT : forall u, u < n -> ~ In u rest -> u = first \/ inS u = false).
  { intros u Hu Nu. destruct (Nat.eq_dec u first); [auto|]. right. destruct (inS u) eqn:Iu; [|reflexivity]. exfalso. apply Nu, Hrest. auto. }
  assert (DEG : forall u, u < n -> ~ In u rest -> nth u deg2 0%N = ls D2 R2 fd u).
  { intros u Hu Nu. destruct (OUT u Hu Nu) as [->|Iu]; [apply (mi_dfirst _ _ _ _ _ _ _ _ _ I2)|apply (mi_dout _ _ _ _ _ _ _ _ _ I2); auto]. }
  assert (FE : forall u v, u < n -> v < n -> (f u = f v <-> rep inS first u = rep inS first v)).
  { assert (FR : forall u, u < n -> f u = f (rep inS first u) /\ rep inS first u < n /\ ~ In (rep inS first u) rest).
    { intros u Hu. unfold rep. destruct (inS u) eqn:Iu.
      - split; [|split; [auto|intro X; apply Hrest in X; tauto]]. destruct (Nat.eq_dec u first) as [->|]; [auto|]. rewrite F4. apply F3, Hvs, Hrest. auto.
      - split; [auto|]. split; [auto|]. intro X. apply Hrest in X. destruct X as [_ [X _]]. congruence. }
    intros u v Hu Hv. destruct (FR u Hu) as [A1 [A2 A3]]. destruct (FR v Hv) as [B1 [B2 B3]]. split; [|intro X; rewrite A1, B1, X; auto].
    intro X. rewrite <- (F2 (rep inS first u)) by (auto; rewrite Hvs; auto). rewrite <- (F2 (rep inS first v)) by (auto; rewrite Hvs; auto).
    rewrite <- A1, <- B1, X. reflexivity. }
  assert (REPO : forall u, u < n -> ~ In u rest -> rep inS first u = u).
  { intros u Hu Nu. unfold rep. destruct (OUT u Hu Nu) as [->|Iu]; [rewrite first_in|rewrite Iu]; reflexivity. }
  assert (FP : forall u p, u < n -> p < n' -> (f u =? p) = (rep inS first u =? rho p)).
  { intros u p Hu Hp. destruct (RHO p Hp) as [A [B C]]. apply eq_true_iff_eq. rewrite !Nat.eqb_eq. rewrite <- C at 1. rewrite FE by auto.
    rewrite (REPO (rho p)) by auto. tauto. }
  assert (EG : Some G' = Some G3) by (rewrite <- E, <- E3; reflexivity). injection EG as ->. fold R'.
  destruct (drop_shape _ _ _ _ E3) as (DL & DO & DC). cbn [with_rows m_last m_orig m_cont] in DL, DO, DC.
  assert (LV : length vs = length rest) by (apply Permutation_length, sort_desc_perm). split; [|split; [|split; [|split]]].
  - intro u. apply cntn_nodup. intro b. change (map (fun h : half => fst (fst h)) (nth u R' [])) with (tgts (nth u R' [])). rewrite <- ls_cb.
    destruct (Nat.lt_ge_cases u n') as [Hu|Hu]; [|unfold ls, rl; rewrite nth_overflow by lia; cbn; lia]. rewrite LS3 by auto.
    etransitivity; [apply (ls_live_mono (mem vs) R2 _ (cb (rho b)))|rewrite <- LSM; apply XA]. intros e t w r Q X. destruct (LKM (rho u) e t w r Q X) as (A1 & _ & A3 & _). unfold mem in A3. apply mem_false in A3.
    unfold cb. destruct (Nat.eqb_spec (f t) b) as [<-|]; [|lia]. rewrite F2 by (auto; lia). rewrite Nat.eqb_refl. lia.
  - intros u t w r I Ez. apply In_nth_error in I. destruct I as [e I]. assert (Q : slot R' u e = Some (t, w, r)) by exact I. destruct (slot_lt _ _ _ _ Q) as [Hu _].
    pose proof (ls_live_le nodead R' fz u e t w r Q eq_refl) as W. rewrite LS3 in W by (unfold n', m_n; auto). unfold fz in W at 1. subst w. rewrite N.eqb_refl in W.
    assert (Z : ls (mem vs) R2 (fun t w => fz (f t) w) (rho u) = ls (mem vs) R2 fz (rho u)) by reflexivity. rewrite Z in W. rewrite <- LSM, XC in W. lia.
  - intro Q. change (m_last G3 = n'). rewrite DL, Q, N3. fold vs. unfold n. lia.
  - exact DO.
  - intro Q. change (length (m_cont G3) = n'). rewrite DC, Q, N3. fold vs. unfold n. lia.
Qed.
