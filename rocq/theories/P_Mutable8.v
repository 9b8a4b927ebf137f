(* P_Mutable8.v - proofs about mutable_graph: contractEdge, when the larger end has distinct neighbours. *)
From Verif Require Import SpecCut P_Cut P_Mutable P_Mutable2 P_Mutable3 P_Mutable4 P_Mutable5 P_Mutable6 P_Mutable7 M_Mutable.

Lemma sums_contraction inS first n R D2 R2 f rho n' W' :
  valid_rows R -> length R = n -> length R2 = n -> first < n -> inS first = true -> linked D2 R2 ->
  (forall u e, u < n -> inS u = true -> u <> first -> e < rl R2 u -> D2 u e = true) ->
  (forall p, p < n' -> rho p < n /\ (inS (rho p) = true -> rho p = first)) ->
  (forall p q, p < n' -> q < n' -> p <> q -> rho p <> rho q) ->
  (forall u p, u < n -> p < n' -> (f u =? p) = (rep inS first u =? rho p)) ->
  same_sums inS first n (D0 inS R) D2 R R2 ->
  (forall p q, p < n' -> q < n' -> W' p q = ls D2 R2 (fun t w => fw q (f t) w) (rho p)) ->
  contraction_of n (wt (adj R)) f n' W'.
Proof.
  intros V NR N2 Hf first_in LK DD RHO RINJ FP [SS1 SS2] HW p q Hp Hq Npq.
  destruct (RHO p Hp) as [P1 P2]. destruct (RHO q Hq) as [Q1 Q2]. pose proof (RINJ p q Hp Hq Npq) as NPQ. rewrite HW by auto. clear HW.
  transitivity (bsum n (fun u => bsum n (fun v => if (rep inS first u =? rho p) && (rep inS first v =? rho q) then wt (adj R) u v else 0%N))).
  2: { apply bsum_ext. intros u Hu. apply bsum_ext. intros v Hv. rewrite !FP by auto. reflexivity. }
  pose proof (fun t Ht => FP t q Ht Hq) as FQ. clear FP. set (P := rho p) in *. set (Q := rho q) in *.
  assert (LIVE : forall e t w r, slot R2 P e = Some (t, w, r) -> D2 P e = false -> t < n /\ (inS t = true -> t = first)).
  { intros e t w r S De. destruct (LK P e t w r S De) as [A [B [C X]]]. split; [lia|]. intro It. destruct (Nat.eq_dec t first); [auto|].
    rewrite DD in C; [discriminate|lia|auto|auto|apply (slot_lt _ _ _ _ X)]. }
  assert (REPO : forall u, (inS u = true -> u = first) -> rep inS first u = u).
  { intros u Hu. unfold rep. destruct (inS u); [symmetry; auto|reflexivity]. }
  destruct (inS P) eqn:IP.
  - assert (EP : P = first) by auto. assert (IQ : inS Q = false) by (destruct (inS Q); [exfalso; apply NPQ; rewrite EP; symmetry; auto|auto]).
    transitivity (ls D2 R2 (fw Q) P).
    { apply ls_live_ext. intros e t w r S De. destruct (LIVE e t w r S De) as [A B]. unfold fw. rewrite FQ by auto. rewrite REPO by auto. reflexivity. }
    assert (X1 : ssum inS n D2 R2 (fw Q) = ls D2 R2 (fw Q) P).
    { unfold ssum. rewrite (bsum_ext n _ (fun u => if Nat.eqb u P then ls D2 R2 (fw Q) P else 0%N)).
      - apply (bsum_single n (fun _ => ls D2 R2 (fw Q) P) P P1).
      - intros u Hu. destruct (Nat.eqb_spec u P) as [->|Nu]; [rewrite IP; reflexivity|]. destruct (inS u) eqn:Iu; [|reflexivity].
        unfold ls. apply bsum_zero. intros e He. apply val_dead. apply DD; congruence || auto. }
    rewrite <- X1, (SS1 (fw Q) (lin_fw Q)). unfold ssum. apply bsum_ext. intros u Hu. destruct (inS u) eqn:Iu.
    + assert (RU : rep inS first u = P) by (unfold rep; rewrite Iu; auto). rewrite RU, Nat.eqb_refl. cbn [andb].
      transitivity (ls nodead R (fw Q) u).
      * unfold ls. apply bsum_ext. intros e He. unfold val. destruct (slot R u e) as [[[t w] r]|] eqn:S; [|reflexivity].
        rewrite (D0_slot inS R u e t w r S). unfold nodead, fw. destruct (Nat.eqb_spec t Q) as [->|]; [rewrite IQ, andb_false_r; reflexivity|].
        destruct (inS u && inS t); reflexivity.
      * rewrite <- wt_ls. rewrite (bsum_ext n _ (fun v => if Nat.eqb v Q then wt (adj R) u Q else 0%N)).
        -- rewrite (bsum_single n (fun _ => wt (adj R) u Q) Q Q1). reflexivity.
        -- intros v Hv. unfold rep. destruct (inS v) eqn:Iv.
           ++ destruct (Nat.eqb_spec first Q); [congruence|]. destruct (Nat.eqb_spec v Q) as [->|]; [congruence|reflexivity].
           ++ destruct (Nat.eqb_spec v Q) as [->|]; reflexivity.
    + symmetry. apply bsum_zero. intros v Hv. unfold rep. rewrite Iu. destruct (Nat.eqb_spec u P) as [->|]; [congruence|reflexivity].
  - transitivity (ls D2 R2 (fun t w => fw Q (rep inS first t) w) P).
    { apply ls_live_ext. intros e t w r S De. destruct (LIVE e t w r S De) as [A B]. unfold fw. rewrite FQ by auto. reflexivity. }
    rewrite (SS2 (fw Q) P (lin_fw Q) IP).
    rewrite (ls_D_ext (D0 inS R) nodead) by (intros e _; unfold D0; rewrite IP; reflexivity).
    unfold fw. rewrite (ls_pred R (fun t => rep inS first t =? Q) P V). rewrite NR.
    set (X := bsum n (fun v => if rep inS first v =? Q then wt (adj R) P v else 0%N)).
    transitivity (bsum n (fun u => if Nat.eqb u P then X else 0%N)); [symmetry; apply (bsum_single n (fun _ => X) P P1)|].
    apply bsum_ext. intros u Hu. destruct (Nat.eqb_spec u P) as [->|Nu].
    + rewrite (REPO P) by congruence. rewrite Nat.eqb_refl. reflexivity.
    + symmetry. apply bsum_zero. intros v Hv. destruct (Nat.eqb_spec (rep inS first u) P) as [Y|]; [|reflexivity].
      exfalso. unfold rep in Y. destruct (inS u) eqn:Iu; congruence.
Qed.

(** the map of contractEdge *)
Lemma edge_map_ok node edge n0 R0 : forall row k m, length m = n0 ->
  (forall j, nth_error row j = nth_error (nth node R0 []) (k + j)) ->
  (forall t rev ed2, nth t m None = Some (rev, ed2) -> ed2 <> edge /\ exists w, slot R0 node ed2 = Some (t, w, rev)) ->
  let m' := edge_map row edge k m in
  length m' = n0 /\ forall t rev ed2, nth t m' None = Some (rev, ed2) -> ed2 <> edge /\ exists w, slot R0 node ed2 = Some (t, w, rev).
Proof.
  induction row as [|[[t w] r] row IH]; intros k m Lm Hrow Hm; cbn [edge_map]; [auto|].
  apply IH.
  - destruct (k =? edge); [auto|]. destruct (nth t m None); rewrite ?upd_length; auto.
  - intro j. specialize (Hrow (S j)). cbn in Hrow. rewrite Hrow. f_equal. lia.
  - intros t' rev ed2 H. destruct (Nat.eqb_spec k edge) as [->|Nk]; [auto|]. destruct (nth t m None) eqn:Em; [auto|].
    destruct (Nat.eq_dec t' t) as [->|Nt]; [|rewrite nth_upd_neq in H; auto].
    destruct (Nat.lt_ge_cases t (length m)) as [Lt|Ge]; [|rewrite upd_out in H by auto; auto].
    rewrite nth_upd_eq in H by auto. injection H as <- <-. split; [auto|]. exists w. unfold slot. specialize (Hrow 0). cbn in Hrow.
    rewrite Nat.add_0_r in Hrow. auto.
Qed.

Section CE.
Variables (node target edge skip : nat) (n0 : nat) (T : nat -> option nat) (len : nat) (dw : N) (m : list (option (nat * nat))).
Hypothesis Nnt : node <> target.
Hypothesis Hnode : node < n0.
Hypothesis Htarget : target < n0.
Hypothesis Tinj : forall j j' t, j < len -> j' < len -> T j = Some t -> T j' = Some t -> j = j'.
Hypothesis Tskip : T skip = Some node.
Hypothesis Hskip : skip < len.

Definition inE (t : nat) : bool := (t =? node) || (t =? target).
Definition Dk (k : nat) : dead := fun a b => ((a =? target) && ((b <? k) || (b =? skip))) || ((a =? node) && (b =? edge)).

Record cinv (k : nat) (R : list (list half)) (deg : list N) (ne : N) : Prop := {
  ci_n : length R = n0;
  ci_link : linked (Dk k) R;
  ci_map : forall j t rev ed2, k <= j < len -> j <> skip -> T j = Some t -> nth t m None = Some (rev, ed2) ->
             ed2 <> edge /\ exists w, slot R node ed2 = Some (t, w, rev);
  ci_edge : edge < rl R node;
  ci_T : forall b, tgt_of R target b = T b;
  ci_len : rl R target = len;
  ci_dlen : length deg = n0;
  ci_dnode : nth node deg 0%N = (ls (Dk k) R fd node + dw)%N;
  ci_dout : forall u, u < n0 -> u <> node -> u <> target -> nth u deg 0%N = ls (Dk k) R fd u;
  ci_ne : ne = (bsum n0 (ls (Dk k) R fc) + 2)%N }.

Lemma contract_edges_ok cnt : forall k R deg ne, k + cnt = len -> cinv k R deg ne ->
  exists R' deg' ne', contract_edges cnt m skip node target k (R, deg, ne) = Some (R', deg', ne') /\ cinv len R' deg' ne' /\
    same_sums inE node n0 (Dk k) (Dk len) R R'.
Proof.
  induction cnt as [|cnt IH]; intros k R deg ne Hk I.
  - rewrite Nat.add_0_r in Hk. subst k. exists R, deg, ne. split; [reflexivity|]. split; [auto|]. split; auto.
  - cbn [contract_edges]. destruct (Nat.eqb_spec k skip) as [Ek|Nk].
    + assert (DE : forall a b, Dk k a b = Dk (S k) a b).
      { intros a b. unfold Dk. f_equal. f_equal. destruct (Nat.ltb_spec b k), (Nat.ltb_spec b (S k)), (Nat.eqb_spec b skip); try reflexivity; lia. }
      assert (LE : forall R f u, ls (Dk k) R f u = ls (Dk (S k)) R f u) by (intros; apply ls_D_ext; intros; apply DE).
      destruct (IH (S k) R deg ne ltac:(lia)) as (R' & deg' & ne' & E & I' & S1 & S2).
      { destruct I. constructor; auto.
        - apply linked_ext with (D := Dk k); auto.
        - intros j t rev ed2 Hj. apply ci_map0. lia.
        - rewrite <- LE. auto.
        - intros u Hu N1 N2. rewrite <- LE. auto.
        - rewrite ci_ne0. f_equal. apply bsum_ext. intros u _. apply LE. }
      exists R', deg', ne'. split; [auto|]. split; [auto|]. split.
      * intros f Lf. rewrite S1 by auto. unfold ssum. apply bsum_ext. intros u _. destruct (inE u); [symmetry; apply LE|reflexivity].
      * intros f u Lf Iu. rewrite S2 by auto. symmetry. apply LE.
    + destruct (slot_some R target k) as (t & w & r & Sk); [rewrite (ci_len _ _ _ _ I); lia|]. rewrite Sk.
      assert (Tk : T k = Some t) by (rewrite <- (ci_T _ _ _ _ I); unfold tgt_of; rewrite Sk; reflexivity).
      assert (Dkk : Dk k target k = false).
      { unfold Dk. rewrite Nat.eqb_refl, Nat.ltb_irrefl. destruct (Nat.eqb_spec k skip); [congruence|]. destruct (Nat.eqb_spec target node); [congruence|reflexivity]. }
      destruct (ci_link _ _ _ _ I target k t w r Sk Dkk) as [Ht [Ntt [_ St]]]. rewrite (ci_n _ _ _ _ I) in Ht.
      assert (Ntn : t <> node).
      { intros ->. apply Nk. apply (Tinj k skip node); auto; lia. }
      assert (It : inE t = false) by (unfold inE; destruct (Nat.eqb_spec t node), (Nat.eqb_spec t target); try congruence; reflexivity).
      assert (Dt : forall b, Dk k t b = false).
      { intro b. unfold Dk. destruct (Nat.eqb_spec t target); [congruence|]. destruct (Nat.eqb_spec t node); [congruence|reflexivity]. }
      assert (DX : forall a b, dadd (Dk k) target k a b = Dk (S k) a b).
      { intros a b. unfold dadd, Dk. destruct (Nat.eqb_spec a target) as [->|]; cbn [andb orb].
        - destruct (Nat.eqb_spec target node); [congruence|]. cbn [andb orb]. rewrite !orb_false_r.
          destruct (Nat.ltb_spec b k), (Nat.ltb_spec b (S k)), (Nat.eqb_spec b skip), (Nat.eqb_spec b k); try reflexivity; lia.
        - rewrite orb_false_r. reflexivity. }
      assert (LX : forall R f u, ls (dadd (Dk k) target k) R f u = ls (Dk (S k)) R f u) by (intros; apply ls_D_ext; intros; apply DX).
      assert (In1 : inE node = true) by (unfold inE; rewrite Nat.eqb_refl; reflexivity).
      assert (In2 : inE target = true) by (unfold inE; rewrite Nat.eqb_refl, orb_true_r; reflexivity).
      assert (SUMS : forall R', (forall f u, lin f -> (ls (dadd (Dk k) target k) R' f u + pairf target t w f u = ls (Dk k) R f u + pairf node t w f u)%N) ->
        same_sums inE node n0 (Dk k) (Dk (S k)) R R').
      { intros R' C. apply step_sums with (n := target) (t := t) (w := w); auto. intros f u Lf. rewrite <- LX. auto. }
      assert (FIN : forall R' R3 D3, same_sums inE node n0 (Dk k) (Dk (S k)) R R' -> same_sums inE node n0 (Dk (S k)) D3 R' R3 -> same_sums inE node n0 (Dk k) D3 R R3).
      { intros R' R3 D3 [A1 A2] [B1 B2]. split; [intros f Lf; rewrite B1, A1; auto|intros f u Lf Iu; rewrite B2, A2; auto]. }
      destruct (nth t m None) as [[rev ed2]|] eqn:Em.
      * destruct (ci_map _ _ _ _ I k t rev ed2 ltac:(lia) Nk Tk Em) as [Ned [w2 Sf]].
        assert (Df : Dk k node ed2 = false).
        { unfold Dk. destruct (Nat.eqb_spec node target); [congruence|]. destruct (Nat.eqb_spec ed2 edge); [congruence|]. rewrite andb_false_r. reflexivity. }
        destruct (hit_ok (Dk k) R node target k t w r ed2 rev w2 (ci_link _ _ _ _ I) Sk Dkk (fun e => Nnt (eq_sym e)) Sf Df Dt)
          as (R1 & R2 & R' & E1 & E2 & E3 & RT & N' & RL' & SL' & SF' & LK & C & CC).
        rewrite E1, E2, E3.
        destruct (IH (S k) R' (deg_add deg node w) (ne - 2)%N ltac:(lia)) as (R3 & deg' & ne' & E & I' & SS).
        { pose proof I as I0. destruct I0. constructor.
          - congruence.
          - apply linked_ext with (D := dadd (Dk k) target k); auto.
          - intros j t' rev' ed' Hj Nj Tj Hm. destruct (ci_map0 j t' rev' ed' ltac:(lia) Nj Tj Hm) as [A [w' S']]. split; [auto|]. exists w'.
            assert (Nt' : t' <> t). { intros ->. assert (k = j) by (apply (Tinj k j t); auto; lia). lia. }
            rewrite SL'; [|auto|intros _ ->; rewrite Sf in S'; congruence]. rewrite S'. cbn. unfold moved. cbn.
            destruct (Nat.eqb_spec t' t); [congruence|]. rewrite andb_false_r. reflexivity.
          - rewrite RL'. destruct (Nat.eqb_spec node t); [congruence|auto].
          - intro b. rewrite <- ci_T0. apply tgt_moved with (D := Dk k) (v := t) (l := rl R t - 1) (e := r). apply SL'; congruence.
          - rewrite RL'. destruct (Nat.eqb_spec target t); [congruence|auto].
          - unfold deg_add. rewrite upd_length. auto.
          - unfold deg_add. rewrite nth_upd_eq by lia. rewrite ci_dnode0, <- LX. specialize (C fd node lin_fd). unfold pairf in C. rewrite Nat.eqb_refl in C.
            destruct (Nat.eqb_spec node target); [congruence|]. destruct (Nat.eqb_spec node t); [congruence|]. unfold fd in *. lia.
          - intros u Hu N1 N2. unfold deg_add. rewrite nth_upd_neq by auto. rewrite ci_dout0, <- LX by auto. specialize (C fd u lin_fd). unfold pairf in C.
            destruct (Nat.eqb_spec u target); [congruence|]. destruct (Nat.eqb_spec u node); [congruence|]. destruct (u =? t); unfold fd in *; lia.
          - rewrite ci_ne0.
            assert (P : (bsum n0 (ls (Dk (S k)) R' fc) + 2 = bsum n0 (ls (Dk k) R fc))%N).
            { rewrite <- (pairf_count n0 target t w) by auto. rewrite <- bsum_add. apply bsum_ext. intros i _. rewrite <- LX. apply CC. }
            lia. }
        exists R3, deg', ne'. split; [auto|]. split; [auto|]. eapply FIN; [apply SUMS; exact C|auto].
      * destruct (redirect_ok (Dk k) R node target k t w r (ci_link _ _ _ _ I) Sk Dkk (fun e => Nnt (eq_sym e))) as (R1 & R2 & E1 & E2 & N' & RL' & SL' & LK & C); auto.
        { rewrite (ci_n _ _ _ _ I). auto. }
        { unfold Dk. destruct (Nat.eqb_spec node target); [congruence|]. cbn [andb orb]. rewrite Nat.eqb_refl. cbn. apply Nat.eqb_neq. pose proof (ci_edge _ _ _ _ I). lia. }
        change (length (nth node R [])) with (rl R node). rewrite E1, E2. set (R' := push R2 node (t, w, r)) in *.
        destruct (IH (S k) R' (deg_add deg node w) ne ltac:(lia)) as (R3 & deg' & ne' & E & I' & SS).
        { pose proof I as I0. destruct I0. constructor.
          - congruence.
          - apply linked_ext with (D := dadd (Dk k) target k); auto.
          - intros j t' rev' ed' Hj Nj Tj Hm. destruct (ci_map0 j t' rev' ed' ltac:(lia) Nj Tj Hm) as [A [w' S']]. split; [auto|]. exists w'.
            rewrite SL'. destruct (Nat.eqb_spec node t); [congruence|]. cbn [andb]. rewrite Nat.eqb_refl. cbn [andb].
            pose proof (slot_lt _ _ _ _ S'). destruct (Nat.eqb_spec ed' (rl R node)); [lia|auto].
          - rewrite RL'. rewrite Nat.eqb_refl. lia.
          - intro b. rewrite <- ci_T0. unfold tgt_of. rewrite SL'. destruct (Nat.eqb_spec target t); [congruence|]. destruct (Nat.eqb_spec target node); [congruence|]. reflexivity.
          - rewrite RL'. destruct (Nat.eqb_spec target node); [congruence|auto].
          - unfold deg_add. rewrite upd_length. auto.
          - unfold deg_add. rewrite nth_upd_eq by lia. rewrite ci_dnode0, <- LX. specialize (C fd node). unfold pairf in C. rewrite Nat.eqb_refl in C.
            destruct (Nat.eqb_spec node target); [congruence|]. destruct (Nat.eqb_spec node t); [congruence|]. unfold fd in *. lia.
          - intros u Hu N1 N2. unfold deg_add. rewrite nth_upd_neq by auto. rewrite ci_dout0, <- LX by auto. specialize (C fd u). unfold pairf in C.
            destruct (Nat.eqb_spec u target); [congruence|]. destruct (Nat.eqb_spec u node); [congruence|]. destruct (u =? t); unfold fd in *; lia.
          - rewrite ci_ne0.
            assert (P : (bsum n0 (ls (Dk (S k)) R' fc) + 2 = bsum n0 (ls (Dk k) R fc) + 2)%N).
            { rewrite <- (pairf_count n0 target t w) at 1 by auto. rewrite <- (pairf_count n0 node t w) by auto. rewrite <- !bsum_add. apply bsum_ext. intros i _. rewrite <- LX. apply C. }
            lia. }
        exists R3, deg', ne'. split; [auto|]. split; [auto|]. eapply FIN; [apply SUMS; intros; apply C|auto].
Qed.
End CE.

Lemma row_targets_inj R v j j' t : NoDup (map fst (nth v (adj R) [])) -> tgt_of R v j = Some t -> tgt_of R v j' = Some t -> j = j'.
Proof.
  intros ND Hj Hj'. rewrite adj_nth in ND.
  assert (X : forall i, tgt_of R v i = Some t -> nth_error (map fst (map (fun h : half => (fst (fst h), snd (fst h))) (nth v R []))) i = Some t).
  { intros i Hi. unfold tgt_of, slot in Hi. rewrite !nth_error_map. unfold half in *. destruct (nth_error (nth v R []) i) as [[[a b] c]|]; cbn in *; congruence. }
  pose proof (X j Hj) as A. pose proof (X j' Hj') as B. apply (proj1 (NoDup_nth_error _) ND); [|transitivity (Some t); [exact A|symmetry; exact B]].
  apply nth_error_Some. intro Y. assert (None = Some t) by (rewrite <- Y; exact A). discriminate.
Qed.

Theorem contract_edge_ok G v0 e0 t0 w0 r0 : mvalid G -> length (m_part G) = m_n G -> length (m_cut G) = m_n G ->
  slot (m_rows G) v0 e0 = Some (t0, w0, r0) -> Nat.max v0 t0 < m_n G - 1 ->
  NoDup (map fst (nth (Nat.max v0 t0) (adj (m_rows G)) [])) ->
  exists G' f, m_contract_edge G v0 e0 = Some G' /\ mvalid G' /\ m_n G' = m_n G - 1 /\
    length (m_part G') = m_n G' /\ length (m_cut G') = m_n G' /\
    clustering (m_n G) f (m_n G') /\ merges (m_n G) (fun x => x = v0 \/ x = t0) f /\
    contraction_of (m_n G) (wt (adj (m_rows G))) f (m_n G') (wt (adj (m_rows G'))) /\
    (groups_exact (m_n G) (m_cont G) (m_pos G) ->
       groups_exact (m_n G') (m_cont G') (m_pos G') /\ length (m_pos G') = length (m_pos G) /\
       forall x, x < length (m_pos G) -> nth x (m_pos G') 0 = f (nth x (m_pos G) 0)).
Proof.
  intros [V [DG CN]] LP LC SV HM ND. set (n := m_n G) in *. set (R := m_rows G) in *. assert (NR : length R = n) by reflexivity.
  pose proof (proj2 (linked_valid R) V) as L. apply deg_ls in DG. destruct DG as [LD DG]. apply cnt_ls in CN.
  destruct (L v0 e0 t0 w0 r0 SV eq_refl) as [Ht0 [Nt0 [_ SR]]].
  assert (EX : exists node target edge skip, (if t0 <? v0 then (t0, r0) else (v0, e0)) = (node, edge) /\ slot R node edge = Some (target, w0, skip) /\
     node < target /\ target = Nat.max v0 t0 /\ (forall x, (x = v0 \/ x = t0) <-> (x = node \/ x = target))).
  { destruct (Nat.ltb_spec t0 v0).
    - exists t0, v0, r0, e0. repeat split; auto; try lia; intros [?|?]; auto.
    - exists v0, t0, e0, r0. repeat split; auto; try lia; intros [?|?]; auto. }
  destruct EX as (node & target & edge & skip & Epick & SN & Hlt & Emax & Hends). rewrite <- Emax in HM, ND.
  unfold m_contract_edge. fold R. rewrite SV, Epick, SN. fold n. set (back := n - 1) in *.
  destruct (Nat.eqb_spec target back) as [X|_]; [lia|].
  set (m := edge_map (nth node R []) edge 0 (repeat None n)).
  destruct (edge_map_ok node edge n R (nth node R []) 0 (repeat None n)) as [Lm Hm].
  { apply repeat_length. } { intro j. reflexivity. } { intros t rev ed2 X. rewrite nth_repeat in X. discriminate. }
  fold m in Lm, Hm. destruct (L node edge target w0 skip SN eq_refl) as [Htn [Ntn [_ ST]]].
  destruct (slot_lt _ _ _ _ SN) as [Hn0 Hedge]. destruct (slot_lt _ _ _ _ ST) as [_ Hskip]. rewrite NR in *.
  set (T := tgt_of R target). set (len := rl R target).
  assert (Tinj : forall j j' t, j < len -> j' < len -> T j = Some t -> T j' = Some t -> j = j') by (intros j j' t _ _; apply row_targets_inj; auto).
  assert (Tskip : T skip = Some node) by (unfold T, tgt_of; rewrite ST; reflexivity).
  (* the contracted edge leaves *)
  destruct (kill_ok nodead R node edge target w0 skip L SN eq_refl) as [LK0 LS0].
  assert (DE0 : forall a b, dadd (dadd nodead node edge) target skip a b = Dk node target edge skip 0 a b).
  { intros a b. unfold dadd, nodead, Dk. cbn [orb]. rewrite orb_comm. reflexivity. }
  assert (LE0 : forall f u, ls (dadd (dadd nodead node edge) target skip) R f u = ls (Dk node target edge skip 0) R f u) by (intros; apply ls_D_ext; intros; apply DE0).
  assert (I0 : cinv node target edge skip n T len w0 m 0 R (m_deg G) (m_ne G)).
  { constructor.
    - exact NR.
    - apply linked_ext with (D := dadd (dadd nodead node edge) target skip); auto.
    - intros j t rev ed2 Hj Nj Tj X. apply Hm; auto.
    - auto.
    - reflexivity.
    - reflexivity.
    - auto.
    - rewrite DG by lia. rewrite LS0, LE0, Nat.eqb_refl. destruct (Nat.eqb_spec node target); [lia|]. unfold fd. lia.
    - intros u Hu N1 N2. rewrite DG by lia. rewrite LS0, LE0. destruct (Nat.eqb_spec u node); [congruence|]. destruct (Nat.eqb_spec u target); [congruence|]. lia.
    - rewrite CN. rewrite ?NR. rewrite <- (pairf_count n node target w0) by lia. rewrite <- bsum_add. apply bsum_ext. intros u _. rewrite LS0, LE0. unfold pairf. lia. }
  destruct (contract_edges_ok node target edge skip n T len w0 m ltac:(lia) Hn0 Htn Tinj Tskip Hskip len 0 R (m_deg G) (m_ne G) eq_refl I0)
    as (R1 & deg1 & ne1 & E1 & I1 & SS).
  change (length (nth target R [])) with len. rewrite E1. destruct I1 as [N1 LK1 _ HE1 T1 RL1 LD1 DN1 DO1 NE1].
  set (De := fun a b => (a =? target) || ((a =? node) && (b =? edge))).
  assert (DEe : forall a b, b < rl R1 a -> Dk node target edge skip len a b = De a b).
  { intros a b Hb. unfold Dk, De. f_equal. destruct (Nat.eqb_spec a target) as [->|]; [|reflexivity]. destruct (Nat.ltb_spec b len); [reflexivity|unfold len in *; lia]. }
  assert (LEe : forall f u, ls (Dk node target edge skip len) R1 f u = ls De R1 f u) by (intros; apply ls_D_ext; intros; apply DEe; auto).
  assert (LKe : linked De R1) by (apply linked_ext with (D := Dk node target edge skip len); auto).
  assert (Dt : forall b, De target b = true) by (intro b; unfold De; rewrite Nat.eqb_refl; reflexivity).
  assert (Dback : forall b, De back b = false).
  { intro b. unfold De. destruct (Nat.eqb_spec back target); [lia|]. destruct (Nat.eqb_spec back node); [lia|reflexivity]. }
  (* the last vertex moves *)
  set (R2 := move_last R1 target []).
  assert (SR2 : forall a, a < n - 1 -> nth a R2 [] = nth (ren target back a) R1 []).
  { intros a Ha. unfold R2. rewrite nth_move_last by lia. rewrite N1. reflexivity. }
  destruct (move_remap De R1 target R2 LKe) as (R3 & E3 & N3 & SL3 & RL3); rewrite ?N1; auto; try lia.
  { unfold R2. rewrite length_move_last. lia. } { intros a b Ha. unfold slot. rewrite SR2 by auto. reflexivity. } { intros a Ha. unfold rl. rewrite SR2 by auto. reflexivity. }
  change (length (nth target R2 [])) with (rl R2 target). rewrite E3.
  assert (N2 : length R2 = n - 1) by (unfold R2; rewrite length_move_last; lia).
  rewrite N1 in SL3, RL3. fold back in SL3, RL3.
  destruct (rename_ok De R1 target R3 LKe ltac:(lia) Dt) as (L3 & LS3 & CN3); rewrite ?N1; fold back; auto; try (rewrite N3, N2; reflexivity).
  rewrite N1 in L3, LS3, CN3. fold back in L3, LS3, CN3.
  assert (RNn : ren target back node = node) by (unfold ren; destruct (Nat.eqb_spec node target); [lia|reflexivity]).
  assert (DR : forall a b, a < n - 1 -> dren De target back a b = (a =? node) && (b =? edge)).
  { intros a b Ha. unfold dren. destruct (Nat.eqb_spec a target) as [->|Na].
    - unfold ren. rewrite Nat.eqb_refl, Dback. destruct (Nat.eqb_spec target node); [lia|reflexivity].
    - unfold ren. destruct (Nat.eqb_spec a target); [congruence|]. unfold De. destruct (Nat.eqb_spec a target); [congruence|reflexivity]. }
  assert (RLn : rl R3 node = rl R1 node) by (rewrite RL3 by lia; rewrite RNn; reflexivity).
  destruct (idel_ok (dren De target back) R3 node edge L3) as (R4 & E4 & N4 & RL4 & _ & _ & L4 & LS4).
  { lia. } { rewrite DR by lia. rewrite !Nat.eqb_refl. reflexivity. }
  { intro X. rewrite DR by lia. rewrite Nat.eqb_refl. cbn [andb]. apply Nat.eqb_neq. lia. }
  rewrite E4.
  assert (DF : forall a b, a < n - 1 -> dsub (dren De target back) node edge a b = nodead a b).
  { intros a b Ha. unfold dsub, nodead. rewrite DR by auto. destruct ((a =? node) && (b =? edge)); reflexivity. }
  assert (LS5 : forall f u, u < n - 1 -> ls nodead R4 f u = ls De R1 (fun t w => f (renb target back t) w) (ren target back u)).
  { intros f u Hu. rewrite <- LS3 by auto. rewrite <- LS4. apply ls_D_ext. intros e _. symmetry. apply DF. auto. }
  set (h := hstep node target back).
  assert (HR : forall y, y < n - 1 -> h (ren target back y) = y).
  { intros y Hy. unfold h, hstep. destruct (Nat.eqb_spec (ren target back y) target) as [X|]; [exfalso; revert X; apply ren_neq; unfold back; lia|]. apply renb_ren. unfold back; lia. }
  assert (HL : forall x, x < n -> h x < n - 1).
  { intros x Hx. unfold h, hstep, renb. destruct (Nat.eqb_spec x target); [lia|]. destruct (Nat.eqb_spec x back); unfold back in *; lia. }
  assert (LS6 : forall f u, u < n - 1 -> ls nodead R4 f u = ls De R1 (fun t w => f (h t) w) (ren target back u)).
  { intros f u Hu. rewrite LS5 by auto. apply ls_live_ext. intros e t w r Q X. pose proof (live_not_dead_row De R1 target _ e t w r LKe Dt Q X).
    unfold h, hstep. destruct (Nat.eqb_spec t target); [congruence|reflexivity]. }
  assert (L5 : linked nodead R4).
  { apply linked_ext with (D := dsub (dren De target back) node edge); [|auto]. intros a b Hb. apply DF. apply rl_lt in Hb. lia. }
  eexists. exists h. split; [reflexivity|]. unfold mvalid, m_n. proj. rewrite N4, N3, N2. fold back.
  set (inS := inE node target).
  assert (InS : forall x, inS x = true <-> x = node \/ x = target) by (intro x; unfold inS, inE; rewrite orb_true_iff, !Nat.eqb_eq; tauto).
  split; [split; [apply linked_valid; auto|split]|].
  { apply deg_ls. split; [unfold deg_sub; rewrite upd_length, length_move_last; lia|]. intros u Hu. rewrite N4, N3, N2 in Hu. rewrite LS5 by auto.
    unfold deg_sub. destruct (Nat.eq_dec u node) as [->|Nu].
    - rewrite nth_upd_eq by (rewrite length_move_last; lia). rewrite nth_move_last by lia. rewrite LD1. fold back. rewrite RNn, DN1, LEe. unfold fd. lia.
    - rewrite nth_upd_neq by auto. rewrite nth_move_last by lia. rewrite LD1. fold back. rewrite <- LEe. rewrite DO1; [reflexivity|apply ren_lt; unfold back; lia| |apply ren_neq; unfold back; lia].
      unfold ren. destruct (Nat.eqb_spec u target); lia. }
  { apply cnt_ls. rewrite N4, N3, N2, NE1.
    transitivity (bsum (length R3) (ls (dren De target back) R3 fc)).
    - rewrite CN3. rewrite N.add_sub. apply bsum_ext. intros u _. apply LEe.
    - rewrite N3, N2. apply bsum_ext. intros u Hu. rewrite <- LS4. apply ls_D_ext. intros e _. apply DF. auto. }
  split; [unfold back; lia|]. split; [rewrite length_move_last; unfold back; lia|]. split; [rewrite length_move_last; unfold back; lia|].
  split.
  { split; [exact HL|]. intros p Hp. exists (ren target back p). split; [apply ren_lt; unfold back in *; lia|apply HR; auto]. }
  split.
  { intros u v Hu Hv. rewrite !Hends. unfold h, hstep, renb.
    destruct (Nat.eqb_spec u target), (Nat.eqb_spec v target), (Nat.eqb_spec u back), (Nat.eqb_spec v back); unfold back in *; lia. }
  split.
  { apply (sums_contraction inS node n R De R1 h (ren target back) (n - 1)); auto; try (apply InS; auto).
    - intros u e Hu Iu Nu He. apply InS in Iu. destruct Iu; [congruence|]. subst u. apply Dt.
    - intros p Hp. split; [apply ren_lt; unfold back in *; lia|]. intro X. apply InS in X. destruct X as [X|X]; [auto|]. exfalso. revert X. apply ren_neq; unfold back in *; lia.
    - intros p q Hp Hq Npq X. apply Npq. rewrite <- (HR p Hp), <- (HR q Hq). f_equal. exact X.
    - intros u p Hu Hp. unfold h, hstep, rep, ren, renb, inS, inE. apply eq_true_iff_eq. rewrite !Nat.eqb_eq.
      destruct (Nat.eqb_spec u node), (Nat.eqb_spec u target), (Nat.eqb_spec u back), (Nat.eqb_spec p target); cbn [orb]; unfold back in *; lia.
    - destruct SS as [S1 S2]. split.
      + intros f Lf. unfold inS. etransitivity; [|etransitivity; [apply (S1 f Lf)|]]; unfold ssum; apply bsum_ext; intros u Hu.
        * destruct (inE node target u); [symmetry; apply LEe|reflexivity].
        * destruct (inE node target u) eqn:Iu; [|reflexivity]. apply ls_D_ext. intros e He. fold inS in Iu.
          destruct (slot_some R u e He) as (t & w & r & Q). rewrite (D0_slot (inE node target) R u e t w r Q). fold inS. rewrite Iu. cbn [andb].
          destruct (L u e t w r Q eq_refl) as [Ht [Nt [_ SQ]]]. apply InS in Iu. unfold Dk.
          destruct Iu as [->| ->].
          -- destruct (Nat.eqb_spec node target); [lia|]. rewrite Nat.eqb_refl. cbn [andb orb].
             destruct (Nat.eqb_spec e edge) as [->|Ne].
             ++ rewrite SN in Q. injection Q as <- _ _. symmetry. apply InS. auto.
             ++ symmetry. destruct (inS t) eqn:It; [|reflexivity]. exfalso. apply InS in It. destruct It as [->| ->]; [congruence|].
                assert (r = skip). { apply (Tinj r skip node); auto; [apply (slot_lt _ _ _ _ SQ)|unfold T, tgt_of; rewrite SQ; reflexivity]. }
                subst r. rewrite ST in SQ. congruence.
          -- rewrite Nat.eqb_refl. destruct (Nat.eqb_spec target node); [lia|]. cbn [andb orb]. rewrite orb_false_r.
             destruct (Nat.ltb_spec e 0); [lia|]. cbn [orb]. destruct (Nat.eqb_spec e skip) as [->|Ne].
             ++ rewrite ST in Q. injection Q as <- _ _. symmetry. apply InS. auto.
             ++ symmetry. destruct (inS t) eqn:It; [|reflexivity]. exfalso. apply InS in It. destruct It as [->| ->]; [|congruence].
                apply Ne. apply (Tinj e skip node); auto. unfold T, tgt_of. rewrite Q. reflexivity.
      + intros f u Lf Iu. rewrite <- LEe. etransitivity; [apply (S2 f u Lf Iu)|]. apply ls_D_ext. intros e He. unfold D0, Dk. rewrite Iu.
        unfold inS, inE in Iu. apply orb_false_iff in Iu. destruct Iu as [A B]. rewrite A, B. reflexivity.
    - intros p q Hp Hq. rewrite wt_ls. rewrite LS6 by auto. reflexivity. }
  intro GE. pose proof GE as [GL GM].
  set (ct := nth target (m_cont G) []). set (cb := nth back (m_cont G) []). set (cn := nth node (m_cont G) []).
  assert (LPs : length (set_positions (set_positions (m_pos G) ct node) cb target) = length (m_pos G)) by (rewrite !set_positions_length; auto).
  assert (PV : forall x, x < length (m_pos G) -> nth x (set_positions (set_positions (m_pos G) ct node) cb target) 0 = h (nth x (m_pos G) 0)).
  { intros x Hx. rewrite nth_set_positions by (rewrite set_positions_length; auto). unfold cb.
    rewrite (groups_mem n (m_cont G) (m_pos G) back x) by (auto; unfold back; lia). rewrite nth_set_positions by auto.
    unfold ct. rewrite (groups_mem n (m_cont G) (m_pos G) target x) by auto. unfold h, hstep, renb.
    destruct (Nat.eqb_spec (nth x (m_pos G) 0) back), (Nat.eqb_spec (nth x (m_pos G) 0) target); auto. lia. }
  split; [|split; [exact LPs|exact PV]]. unfold back. apply (groups_step n (m_cont G) (m_pos G) node target); auto.
  { rewrite length_removelast, !upd_length. lia. }
  intros p Hp. rewrite nth_removelast by (rewrite !upd_length; lia). fold back. unfold ren. destruct (Nat.eqb_spec p node) as [->|Np].
  { rewrite nth_upd_neq by lia. rewrite nth_upd_eq by lia. reflexivity. }
  destruct (Nat.eqb_spec p target) as [->|Npv].
  { rewrite nth_upd_eq by (rewrite upd_length; lia). reflexivity. }
  { rewrite !nth_upd_neq by auto. reflexivity. }
Qed.
