(* P_ContractStd.v - contractEdge with the read of the popped vertex resolved (M_Branch.v): also for the last
   vertex.  The proof follows P_Mutable8.v. *)
From Verif Require Import SpecCut P_Cut P_Mutable P_Mutable2 P_Mutable3 P_Mutable4 P_Mutable5 P_Mutable6 P_Mutable7 P_Mutable8 M_Mutable M_Branch.

Theorem contract_edge_std_ok G v0 e0 t0 w0 r0 : mvalid G -> length (m_part G) = m_n G -> length (m_cut G) = m_n G ->
  slot (m_rows G) v0 e0 = Some (t0, w0, r0) -> NoDup (map fst (nth (Nat.max v0 t0) (adj (m_rows G)) [])) ->
  exists G' f, contract_edge_std G v0 e0 = Some G' /\ mvalid G' /\ m_n G' = m_n G - 1 /\
    length (m_part G') = m_n G' /\ length (m_cut G') = m_n G' /\
    clustering (m_n G) f (m_n G') /\ merges (m_n G) (fun x => x = v0 \/ x = t0) f /\
    contraction_of (m_n G) (wt (adj (m_rows G))) f (m_n G') (wt (adj (m_rows G'))) /\
    (groups_exact (m_n G) (m_cont G) (m_pos G) ->
       groups_exact (m_n G') (m_cont G') (m_pos G') /\ length (m_pos G') = length (m_pos G) /\
       forall x, x < length (m_pos G) -> nth x (m_pos G') 0 = f (nth x (m_pos G) 0)).
Proof.
  intros [V [DG CN]] LP LC SV ND. set (n := m_n G) in *. set (R := m_rows G) in *. assert (NR : length R = n) by reflexivity.
  pose proof (proj2 (linked_valid R) V) as L. apply deg_ls in DG. destruct DG as [LD DG]. apply cnt_ls in CN.
  destruct (L v0 e0 t0 w0 r0 SV eq_refl) as [Ht0 [Nt0 [_ SR]]].
  assert (EX : exists node target edge skip, (if t0 <? v0 then (t0, r0) else (v0, e0)) = (node, edge) /\ slot R node edge = Some (target, w0, skip) /\
     node < target /\ target = Nat.max v0 t0 /\ (forall x, (x = v0 \/ x = t0) <-> (x = node \/ x = target))).
  { destruct (Nat.ltb_spec t0 v0).
    - exists t0, v0, r0, e0. repeat split; auto; try lia; intros [?|?]; auto.
    - exists v0, t0, e0, r0. repeat split; auto; try lia; intros [?|?]; auto. }
  destruct EX as (node & target & edge & skip & Epick & SN & Hlt & Emax & Hends). rewrite <- Emax in ND.
  unfold contract_edge_std. fold R. rewrite SV, Epick, SN. fold n. set (back := n - 1) in *.
  set (m := edge_map (nth node R []) edge 0 (repeat None n)).
  destruct (edge_map_ok node edge n R (nth node R []) 0 (repeat None n)) as [Lm Hm].
  { apply repeat_length. } { intro j. reflexivity. } { intros t rev ed2 X. rewrite nth_repeat in X. discriminate. }
  fold m in Lm, Hm. destruct (L node edge target w0 skip SN eq_refl) as [Htn [Ntn [_ ST]]].
  destruct (slot_lt _ _ _ _ SN) as [Hn0 Hedge]. destruct (slot_lt _ _ _ _ ST) as [_ Hskip]. rewrite NR in *.
  set (T := tgt_of R target). set (len := rl R target).
  assert (Tinj : forall j j' t, j < len -> j' < len -> T j = Some t -> T j' = Some t -> j = j') by (intros j j' t _ _; apply row_targets_inj; auto).
  assert (Tskip : T skip = Some node) by (unfold T, tgt_of; rewrite ST; reflexivity).
  (* the contracted edge leaves *)
  destruct (kill_ok nodead R node edge target w0 skip L SN eq_refl) as [LK0 LS0].
  assert (DE0 : forall a b, dadd (dadd nodead node edge) target skip a b = Dk node target edge skip 0 a b).
  { intros a b. unfold dadd, nodead, Dk. cbn [orb]. rewrite orb_comm. reflexivity. }
  assert (LE0 : forall f u, ls (dadd (dadd nodead node edge) target skip) R f u = ls (Dk node target edge skip 0) R f u) by (intros; apply ls_D_ext; intros; apply DE0).
  assert (I0 : cinv node target edge skip n T len w0 m 0 R (m_deg G) (m_ne G)).
  { constructor.
    - exact NR.
    - apply linked_ext with (D := dadd (dadd nodead node edge) target skip); auto.
    - intros j t rev ed2 Hj Nj Tj X. apply Hm; auto.
    - auto.
    - reflexivity.
    - reflexivity.
    - auto.
    - rewrite DG by lia. rewrite LS0, LE0, Nat.eqb_refl. destruct (Nat.eqb_spec node target); [lia|]. unfold fd. lia.
    - intros u Hu N1 N2. rewrite DG by lia. rewrite LS0, LE0. destruct (Nat.eqb_spec u node); [congruence|]. destruct (Nat.eqb_spec u target); [congruence|]. lia.
    - rewrite CN. rewrite ?NR. rewrite <- (pairf_count n node target w0) by lia. rewrite <- bsum_add. apply bsum_ext. intros u _. rewrite LS0, LE0. unfold pairf. lia. }
  destruct (contract_edges_ok node target edge skip n T len w0 m ltac:(lia) Hn0 Htn Tinj Tskip Hskip len 0 R (m_deg G) (m_ne G) eq_refl I0)
    as (R1 & deg1 & ne1 & E1 & I1 & SS).
  change (length (nth target R [])) with len. rewrite E1. destruct I1 as [N1 LK1 _ HE1 T1 RL1 LD1 DN1 DO1 NE1].
  set (De := fun a b => (a =? target) || ((a =? node) && (b =? edge))).
  assert (DEe : forall a b, b < rl R1 a -> Dk node target edge skip len a b = De a b).
  { intros a b Hb. unfold Dk, De. f_equal. destruct (Nat.eqb_spec a target) as [->|]; [|reflexivity]. destruct (Nat.ltb_spec b len); [reflexivity|unfold len in *; lia]. }
  assert (LEe : forall f u, ls (Dk node target edge skip len) R1 f u = ls De R1 f u) by (intros; apply ls_D_ext; intros; apply DEe; auto).
  assert (LKe : linked De R1) by (apply linked_ext with (D := Dk node target edge skip len); auto).
  assert (Dt : forall b, De target b = true) by (intro b; unfold De; rewrite Nat.eqb_refl; reflexivity).
  assert (Dback : target < back -> forall b, De back b = false).
  { intros Htb b. unfold De. destruct (Nat.eqb_spec back target); [lia|]. destruct (Nat.eqb_spec back node); [lia|reflexivity]. }
  (* the last vertex moves *)
  set (R2 := move_last R1 target []).
  assert (SR2 : forall a, a < n - 1 -> nth a R2 [] = nth (ren target back a) R1 []).
  { intros a Ha. unfold R2. rewrite nth_move_last by lia. rewrite N1. reflexivity. }
  assert (N2 : length R2 = n - 1) by (unfold R2; rewrite length_move_last; lia).
  change (length (nth target R2 [])) with (rl R2 target).
  assert (MR : exists R3, remap (rl R2 target) R2 target target 0 = Some R3 /\ length R3 = length R2 /\
    (forall a b, a < n - 1 -> slot R3 a b = option_map (retgt De target back (ren target back a) b) (slot R1 (ren target back a) b)) /\
    (forall a, a < n - 1 -> rl R3 a = rl R1 (ren target back a))).
  { destruct (Nat.lt_ge_cases target back) as [Htb|Htb].
    - pose proof (move_remap De R1 target R2 LKe) as MR. cbn zeta in MR. rewrite N1 in MR. fold back in MR.
      apply MR; auto; try lia.
      + intros a b Ha. unfold slot. rewrite SR2 by auto. reflexivity.
      + intros a Ha. unfold rl. rewrite SR2 by auto. reflexivity.
    - exists R2. replace (rl R2 target) with 0 by (unfold rl; rewrite nth_overflow by (unfold back in Htb; lia); reflexivity).
      split; [reflexivity|]. split; [reflexivity|]. split.
      + intros a b Ha. unfold slot at 1. rewrite SR2 by auto. fold (slot R1 (ren target back a) b). destruct (slot R1 (ren target back a) b) as [[[t w] r]|] eqn:Q; [|reflexivity].
        cbn. unfold retgt. cbn. destruct (De (ren target back a) b) eqn:QD; [reflexivity|]. cbn [negb andb].
        destruct (Nat.eqb_spec t back) as [->|]; [|reflexivity]. exfalso. apply (live_not_dead_row De R1 target _ b back w r LKe Dt Q QD). unfold back in *. lia.
      + intros a Ha. unfold rl. rewrite SR2 by auto. reflexivity. }
  destruct MR as (R3 & E3 & N3 & SL3 & RL3). rewrite E3.
  destruct (rename_ok De R1 target R3 LKe ltac:(lia) Dt) as (L3 & LS3 & CN3); rewrite ?N1; fold back; auto; try (rewrite N3, N2; reflexivity).
  rewrite N1 in L3, LS3, CN3. fold back in L3, LS3, CN3.
  assert (RNn : ren target back node = node) by (unfold ren; destruct (Nat.eqb_spec node target); [lia|reflexivity]).
  assert (DR : forall a b, a < n - 1 -> dren De target back a b = (a =? node) && (b =? edge)).
  { intros a b Ha. unfold dren. destruct (Nat.eqb_spec a target) as [->|Na].
    - unfold ren. rewrite Nat.eqb_refl, Dback by (unfold back; lia). destruct (Nat.eqb_spec target node); [lia|reflexivity].
    - unfold ren. destruct (Nat.eqb_spec a target); [congruence|]. unfold De. destruct (Nat.eqb_spec a target); [congruence|reflexivity]. }
  assert (RLn : rl R3 node = rl R1 node) by (rewrite RL3 by lia; rewrite RNn; reflexivity).
  destruct (idel_ok (dren De target back) R3 node edge L3) as (R4 & E4 & N4 & RL4 & _ & _ & L4 & LS4).
  { lia. } { rewrite DR by lia. rewrite !Nat.eqb_refl. reflexivity. }
  { intro X. rewrite DR by lia. rewrite Nat.eqb_refl. cbn [andb]. apply Nat.eqb_neq. lia. }
  rewrite E4.
  assert (DF : forall a b, a < n - 1 -> dsub (dren De target back) node edge a b = nodead a b).
  { intros a b Ha. unfold dsub, nodead. rewrite DR by auto. destruct ((a =? node) && (b =? edge)); reflexivity. }
  assert (LS5 : forall f u, u < n - 1 -> ls nodead R4 f u = ls De R1 (fun t w => f (renb target back t) w) (ren target back u)).
  { intros f u Hu. rewrite <- LS3 by auto. rewrite <- LS4. apply ls_D_ext. intros e _. symmetry. apply DF. auto. }
  set (h := hstep node target back).
  assert (HR : forall y, y < n - 1 -> h (ren target back y) = y).
  { intros y Hy. unfold h, hstep. destruct (Nat.eqb_spec (ren target back y) target) as [X|]; [exfalso; revert X; apply ren_neq; unfold back; lia|]. apply renb_ren. unfold back; lia. }
  assert (HL : forall x, x < n -> h x < n - 1).
  { intros x Hx. unfold h, hstep, renb. destruct (Nat.eqb_spec x target); [lia|]. destruct (Nat.eqb_spec x back); unfold back in *; lia. }
  assert (LS6 : forall f u, u < n - 1 -> ls nodead R4 f u = ls De R1 (fun t w => f (h t) w) (ren target back u)).
  { intros f u Hu. rewrite LS5 by auto. apply ls_live_ext. intros e t w r Q X. pose proof (live_not_dead_row De R1 target _ e t w r LKe Dt Q X).
    unfold h, hstep. destruct (Nat.eqb_spec t target); [congruence|reflexivity]. }
  assert (L5 : linked nodead R4).
  { apply linked_ext with (D := dsub (dren De target back) node edge); [|auto]. intros a b Hb. apply DF. apply rl_lt in Hb. lia. }
  eexists. exists h. split; [reflexivity|]. unfold mvalid, m_n. proj. rewrite N4, N3, N2. fold back.
  set (inS := inE node target).
  assert (InS : forall x, inS x = true <-> x = node \/ x = target) by (intro x; unfold inS, inE; rewrite orb_true_iff, !Nat.eqb_eq; tauto).
  split; [split; [apply linked_valid; auto|split]|].
  { apply deg_ls. split; [unfold deg_sub; rewrite upd_length, length_move_last; lia|]. intros u Hu. rewrite N4, N3, N2 in Hu. rewrite LS5 by auto.
    unfold deg_sub. destruct (Nat.eq_dec u node) as [->|Nu].
    - rewrite nth_upd_eq by (rewrite length_move_last; lia). rewrite nth_move_last by lia. rewrite LD1. fold back. rewrite RNn, DN1, LEe. unfold fd. lia.
    - rewrite nth_upd_neq by auto. rewrite nth_move_last by lia. rewrite LD1. fold back. rewrite <- LEe. rewrite DO1; [reflexivity|apply ren_lt; unfold back; lia| |apply ren_neq; unfold back; lia].
      unfold ren. destruct (Nat.eqb_spec u target); lia. }
  { apply cnt_ls. rewrite N4, N3, N2, NE1.
    transitivity (bsum (length R3) (ls (dren De target back) R3 fc)).
    - rewrite CN3. rewrite N.add_sub. apply bsum_ext. intros u _. apply LEe.
    - rewrite N3, N2. apply bsum_ext. intros u Hu. rewrite <- LS4. apply ls_D_ext. intros e _. apply DF. auto. }
  split; [unfold back; lia|]. split; [rewrite length_move_last; unfold back; lia|]. split; [rewrite length_move_last; unfold back; lia|].
  split.
  { split; [exact HL|]. intros p Hp. exists (ren target back p). split; [apply ren_lt; unfold back in *; lia|apply HR; auto]. }
  split.
  { intros u v Hu Hv. rewrite !Hends. unfold h, hstep, renb.
    destruct (Nat.eqb_spec u target), (Nat.eqb_spec v target), (Nat.eqb_spec u back), (Nat.eqb_spec v back); unfold back in *; lia. }
  split.
  { apply (sums_contraction inS node n R De R1 h (ren target back) (n - 1)); auto; try (apply InS; auto).
    - intros u e Hu Iu Nu He. apply InS in Iu. destruct Iu; [congruence|]. subst u. apply Dt.
    - intros p Hp. split; [apply ren_lt; unfold back in *; lia|]. intro X. apply InS in X. destruct X as [X|X]; [auto|]. exfalso. revert X. apply ren_neq; unfold back in *; lia.
    - intros p q Hp Hq Npq X. apply Npq. rewrite <- (HR p Hp), <- (HR q Hq). f_equal. exact X.
    - intros u p Hu Hp. unfold h, hstep, rep, ren, renb, inS, inE. apply eq_true_iff_eq. rewrite !Nat.eqb_eq.
      destruct (Nat.eqb_spec u node), (Nat.eqb_spec u target), (Nat.eqb_spec u back), (Nat.eqb_spec p target); cbn [orb]; unfold back in *; lia.
    - destruct SS as [S1 S2]. split.
      + intros f Lf. unfold inS. etransitivity; [|etransitivity; [apply (S1 f Lf)|]]; unfold ssum; apply bsum_ext; intros u Hu.
        * destruct (inE node target u); [symmetry; apply LEe|reflexivity].
        * destruct (inE node target u) eqn:Iu; [|reflexivity]. apply ls_D_ext. intros e He. fold inS in Iu.
          destruct (slot_some R u e He) as (t & w & r & Q). rewrite (D0_slot (inE node target) R u e t w r Q). fold inS. rewrite Iu. cbn [andb].
          destruct (L u e t w r Q eq_refl) as [Ht [Nt [_ SQ]]]. apply InS in Iu. unfold Dk.
          destruct Iu as [->| ->].
          -- destruct (Nat.eqb_spec node target); [lia|]. rewrite Nat.eqb_refl. cbn [andb orb].
             destruct (Nat.eqb_spec e edge) as [->|Ne].
             ++ rewrite SN in Q. injection Q as <- _ _. symmetry. apply InS. auto.
             ++ symmetry. destruct (inS t) eqn:It; [|reflexivity]. exfalso. apply InS in It. destruct It as [->| ->]; [congruence|].
                assert (r = skip). { apply (Tinj r skip node); auto; [apply (slot_lt _ _ _ _ SQ)|unfold T, tgt_of; rewrite SQ; reflexivity]. }
                subst r. rewrite ST in SQ. congruence.
          -- rewrite Nat.eqb_refl. destruct (Nat.eqb_spec target node); [lia|]. cbn [andb orb]. rewrite orb_false_r.
             destruct (Nat.ltb_spec e 0); [lia|]. cbn [orb]. destruct (Nat.eqb_spec e skip) as [->|Ne].
             ++ rewrite ST in Q. injection Q as <- _ _. symmetry. apply InS. auto.
             ++ symmetry. destruct (inS t) eqn:It; [|reflexivity]. exfalso. apply InS in It. destruct It as [->| ->]; [|congruence].
                apply Ne. apply (Tinj e skip node); auto. unfold T, tgt_of. rewrite Q. reflexivity.
      + intros f u Lf Iu. rewrite <- LEe. etransitivity; [apply (S2 f u Lf Iu)|]. apply ls_D_ext. intros e He. unfold D0, Dk. rewrite Iu.
        unfold inS, inE in Iu. apply orb_false_iff in Iu. destruct Iu as [A B]. rewrite A, B. reflexivity.
    - intros p q Hp Hq. rewrite wt_ls. rewrite LS6 by auto. reflexivity. }
  intro GE. pose proof GE as [GL GM].
  set (ct := nth target (m_cont G) []). set (cb := if target =? back then [] else nth back (m_cont G) []). set (cn := nth node (m_cont G) []).
  assert (LPs : length (set_positions (set_positions (m_pos G) ct node) cb target) = length (m_pos G)) by (rewrite !set_positions_length; auto).
  assert (PV : forall x, x < length (m_pos G) -> nth x (set_positions (set_positions (m_pos G) ct node) cb target) 0 = h (nth x (m_pos G) 0)).
  { intros x Hx. rewrite nth_set_positions by (rewrite set_positions_length; auto). 
    replace (existsb (Nat.eqb x) cb) with (negb (target =? back) && (nth x (m_pos G) 0 =? back)).
    2:{ unfold cb. destruct (target =? back); [reflexivity|]. rewrite (groups_mem n (m_cont G) (m_pos G) back x) by (auto; unfold back; lia). reflexivity. }
    rewrite nth_set_positions by auto.
    unfold ct. rewrite (groups_mem n (m_cont G) (m_pos G) target x) by auto. unfold h, hstep, renb.
    destruct (Nat.eqb_spec target back), (Nat.eqb_spec (nth x (m_pos G) 0) back), (Nat.eqb_spec (nth x (m_pos G) 0) target); cbn [negb andb]; auto; try lia. }
  split; [|split; [exact LPs|exact PV]]. unfold back. apply (groups_step n (m_cont G) (m_pos G) node target); auto.
  { rewrite length_removelast, !upd_length. lia. }
  intros p Hp. rewrite nth_removelast by (rewrite !upd_length; lia). fold back. unfold ren. destruct (Nat.eqb_spec p node) as [->|Np].
  { rewrite nth_upd_neq by lia. rewrite nth_upd_eq by lia. reflexivity. }
  destruct (Nat.eqb_spec p target) as [->|Npv].
  { rewrite nth_upd_eq by (rewrite upd_length; lia). unfold cb. destruct (Nat.eqb_spec target back); [unfold back in *; lia|reflexivity]. }
  { rewrite !nth_upd_neq by auto. reflexivity. }
Qed.
