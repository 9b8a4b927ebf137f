(* P_Mutable6.v - proofs about mutable_graph: contractVertexSet. *)
From Verif Require Import SpecCut P_Cut P_Mutable P_Mutable2 P_Mutable3 P_Mutable4 P_Mutable5 M_Mutable.
From Coq Require Import Sorting.Sorted Sorting.Permutation.

Definition mem (vs : list nat) : dead := fun a _ => existsb (Nat.eqb a) vs.
Definition hstep (first v back x : nat) : nat := if x =? v then first else renb v back x.

Lemma mem_false vs a : existsb (Nat.eqb a) vs = false <-> ~ In a vs.
Proof.
  split.
  - intros H I. apply existsb_eqb_In in I. congruence.
  - intro H. destruct (existsb (Nat.eqb a) vs) eqn:E; [|reflexivity]. apply existsb_eqb_In in E. contradiction.
Qed.

Ltac proj := cbn [m_rows m_deg m_part m_cut m_pos m_cont m_last m_ne m_pc m_orig] in *.

Lemma groups_step n cont pos first v cont' pos' : first < v -> v < n ->
  groups_exact n cont pos -> n - 1 <= length cont' -> length pos' = length pos ->
  (forall p, p < n - 1 -> nth p cont' [] = if p =? first then nth first cont [] ++ nth v cont [] else nth (ren v (n - 1) p) cont []) ->
  (forall x, x < length pos -> nth x pos' 0 = hstep first v (n - 1) (nth x pos 0)) ->
  groups_exact (n - 1) cont' pos'.
Proof.
  intros Hf Hv [GL GM] L' LP CV PV. split; [auto|]. intros p x Hp. rewrite CV by auto. rewrite LP.
  destruct (Nat.eqb_spec p first) as [->|Np].
  - rewrite in_app_iff, !GM by lia. split.
    + intros [[Hx E]|[Hx E]]; (split; [auto|]); rewrite PV by auto; rewrite E; unfold hstep, renb.
      * destruct (Nat.eqb_spec first v); [lia|]. destruct (Nat.eqb_spec first (n - 1)); [lia|reflexivity].
      * rewrite Nat.eqb_refl. reflexivity.
    + intros [Hx E]. rewrite PV in E by auto. unfold hstep, renb in E. destruct (Nat.eqb_spec (nth x pos 0) v); [auto|].
      destruct (Nat.eqb_spec (nth x pos 0) (n - 1)); [lia|]. auto.
  - rewrite GM by (apply ren_lt; auto). split.
    + intros [Hx E]. split; [auto|]. rewrite PV by auto. rewrite E. unfold hstep.
      destruct (Nat.eqb_spec (ren v (n - 1) p) v) as [X|]; [exfalso; revert X; apply ren_neq; auto|]. apply renb_ren. lia.
    + intros [Hx E]. split; [auto|]. rewrite PV in E by auto. unfold hstep in E. destruct (Nat.eqb_spec (nth x pos 0) v); [congruence|].
      rewrite <- E. symmetry. apply ren_renb. auto.
Qed.

Lemma drop_vertices_ok first vs : forall G,
  let D := mem vs in let n := m_n G in
  StronglySorted (fun a b => b < a) vs -> (forall v, In v vs -> first < v < n) -> first < n ->
  linked D (m_rows G) -> length (m_deg G) = n -> length (m_part G) = n -> length (m_cut G) = n ->
  exists G' f rho, drop_vertices vs first G = Some G' /\ m_n G' = n - length vs /\ linked nodead (m_rows G') /\
    (forall phi u, u < m_n G' -> ls nodead (m_rows G') phi u = ls D (m_rows G) (fun t w => phi (f t) w) (rho u)) /\
    length (m_deg G') = m_n G' /\ length (m_part G') = m_n G' /\ length (m_cut G') = m_n G' /\
    (forall u, u < m_n G' -> nth u (m_deg G') 0%N = nth (rho u) (m_deg G) 0%N /\ nth u (m_part G') 0 = nth (rho u) (m_part G) 0 /\
                             nth u (m_cut G') false = nth (rho u) (m_cut G) false) /\
    bsum (m_n G') (ls nodead (m_rows G') fc) = bsum n (ls D (m_rows G) fc) /\ m_ne G' = m_ne G /\ m_orig G' = m_orig G /\
    (forall u, u < m_n G' -> rho u < n /\ ~ In (rho u) vs /\ f (rho u) = u) /\
    (forall x, x < n -> f x < m_n G') /\ (forall x, x < n -> ~ In x vs -> rho (f x) = x) /\
    (forall x, In x vs -> f x = first) /\ f first = first /\
    (groups_exact n (m_cont G) (m_pos G) -> groups_exact (m_n G') (m_cont G') (m_pos G') /\ length (m_pos G') = length (m_pos G) /\
       forall x, x < length (m_pos G) -> nth x (m_pos G') 0 = f (nth x (m_pos G) 0)).
Proof.
  induction vs as [|v vs IH]; intros G D n SS Hin Hf L LD LP LC.
  - exists G, (fun x => x), (fun x => x). split; [reflexivity|]. fold n. split; [simpl; lia|].
    assert (DE : forall a b, D a b = nodead a b) by reflexivity.
    split; [apply linked_ext with (D := D); auto|]. split; [intros phi u _; apply ls_D_ext; auto|].
    split; [auto|]. split; [auto|]. split; [auto|]. split; [auto|].
    split; [apply bsum_ext; intros u _; apply ls_D_ext; auto|]. split; [auto|]. split; [auto|]. split; [intros u Hu; auto|].
    split; [auto|]. split; [auto|]. split; [intros x []|]. split; [auto|]. intro GE. auto.
  - destruct (Hin v (or_introl eq_refl)) as [Hfv Hvn]. inversion SS as [|? ? SS' All]. subst.
    assert (Hlt : forall x, In x vs -> x < v) by (rewrite Forall_forall in All; exact All).
    set (back := n - 1). set (R := m_rows G) in *. assert (NR : length R = n) by reflexivity.
    assert (Dv : forall b, D v b = true) by (intro b; unfold D, mem; cbn; rewrite Nat.eqb_refl; reflexivity).
    assert (Dback : v < back -> forall b, D back b = false).
    { intros Lt b. unfold D, mem. apply mem_false. intros [X|X]; [lia|]. apply Hlt in X. lia. }
    (* the rows after the step *)
    set (cv := nth v (m_cont G) []). set (cont1 := upd (upd (m_cont G) first (nth first (m_cont G) [] ++ cv)) v []).
    set (pos1 := set_positions (m_pos G) cv first).
    assert (STEP : exists G1, drop_vertices (v :: vs) first G = drop_vertices vs first G1 /\
      length (m_rows G1) = n - 1 /\
      (forall a b, a < n - 1 -> slot (m_rows G1) a b = option_map (retgt D v back (ren v back a) b) (slot R (ren v back a) b)) /\
      (forall a, a < n - 1 -> rl (m_rows G1) a = rl R (ren v back a)) /\
      m_deg G1 = move_last (m_deg G) v 0%N /\ m_part G1 = move_last (m_part G) v 0 /\ m_cut G1 = move_last (m_cut G) v false /\
      m_ne G1 = m_ne G /\ m_orig G1 = m_orig G /\
      (groups_exact n (m_cont G) (m_pos G) -> groups_exact (n - 1) (m_cont G1) (m_pos G1) /\ length (m_pos G1) = length (m_pos G) /\
         forall x, x < length (m_pos G) -> nth x (m_pos G1) 0 = hstep first v back (nth x (m_pos G) 0))).
    { cbn [drop_vertices]. fold n. fold back. fold cv. fold cont1. fold pos1. fold R. destruct (Nat.ltb_spec v back) as [Lt|Ge].
      - set (rows1 := upd (upd R v (nth back R [])) back []).
        assert (N1 : length rows1 = n) by (unfold rows1; rewrite !upd_length; auto).
        assert (S1 : forall a b, a < n - 1 -> slot rows1 a b = slot R (ren v back a) b).
        { intros a b Ha. unfold rows1. rewrite slot_upd by (rewrite upd_length; unfold back; lia). destruct (Nat.eqb_spec a back); [unfold back in *; lia|].
          rewrite slot_upd by lia. unfold ren. destruct (Nat.eqb_spec a v); reflexivity. }
        assert (RL1 : forall a, a < n - 1 -> rl rows1 a = rl R (ren v back a)).
        { intros a Ha. unfold rows1. rewrite rl_upd by (rewrite upd_length; unfold back; lia). destruct (Nat.eqb_spec a back); [unfold back in *; lia|].
          rewrite rl_upd by lia. unfold ren. destruct (Nat.eqb_spec a v); reflexivity. }
        destruct (move_remap D R v rows1 L) as (R' & E & N' & SL & RL); auto; try (rewrite NR; auto; fail).
        { rewrite NR, N1. lia. }
        change (length (nth v rows1 [])) with (rl rows1 v). rewrite E.
        eexists. split; [reflexivity|]. proj.
        rewrite NR in SL, RL. fold back in SL, RL.
        split; [rewrite length_removelast; lia|]. split; [intros a b Ha; rewrite slot_removelast by lia; apply SL; auto|].
        split; [intros a Ha; rewrite rl_removelast by lia; apply RL; auto|]. split; [auto|]. split; [auto|]. split; [auto|]. split; [auto|]. split; [auto|].
        intro GE. pose proof GE as [GL GM].
        assert (LC1 : length cont1 = length (m_cont G)) by (unfold cont1; rewrite !upd_length; auto).
        assert (CB : nth back cont1 [] = nth back (m_cont G) []).
        { unfold cont1. rewrite nth_upd_neq by lia. apply nth_upd_neq. lia. }
        rewrite CB.
        assert (LPs : length (set_positions pos1 (nth back (m_cont G) []) v) = length (m_pos G)) by (unfold pos1; rewrite !set_positions_length; auto).
        assert (PV : forall x, x < length (m_pos G) -> nth x (set_positions pos1 (nth back (m_cont G) []) v) 0 = hstep first v back (nth x (m_pos G) 0)).
        { intros x Hx. rewrite nth_set_positions by (unfold pos1; rewrite set_positions_length; auto).
          rewrite (groups_mem n (m_cont G) (m_pos G) back x) by (auto; unfold back; lia). unfold pos1. rewrite nth_set_positions by auto.
          unfold cv. rewrite (groups_mem n (m_cont G) (m_pos G) v x) by auto. unfold hstep, renb.
          destruct (Nat.eqb_spec (nth x (m_pos G) 0) back), (Nat.eqb_spec (nth x (m_pos G) 0) v); auto. lia. }
        split; [|split; [exact LPs|exact PV]]. apply (groups_step n (m_cont G) (m_pos G) first v); auto.
        { rewrite length_removelast, upd_length, LC1. lia. }
        intros p Hp. rewrite nth_removelast by (rewrite upd_length, LC1; lia). fold back.
        unfold cv in cont1. unfold ren. destruct (Nat.eqb_spec p first) as [->|Np].
        { rewrite nth_upd_neq by lia. unfold cont1. rewrite nth_upd_neq by lia. rewrite nth_upd_eq by lia. reflexivity. }
        destruct (Nat.eqb_spec p v) as [->|Npv].
        { rewrite nth_upd_eq by (rewrite LC1; lia). reflexivity. }
        { rewrite nth_upd_neq by auto. unfold cont1. rewrite !nth_upd_neq by auto. reflexivity. }
      - assert (VB : v = back) by (unfold back in *; lia).
        eexists. split; [reflexivity|]. proj. split; [rewrite length_removelast; lia|].
        assert (RN : forall a, a < n - 1 -> ren v back a = a) by (intros a Ha; unfold ren; destruct (Nat.eqb_spec a v); [unfold back in *; lia|reflexivity]).
        assert (ML : forall {A} (l : list A) d, length l = n -> removelast l = move_last l v d).
        { intros A l d Ll. unfold move_last. replace (upd l v (nth (length l - 1) l d)) with l; [reflexivity|].
          rewrite Ll. fold back. rewrite VB. symmetry. apply upd_same. }
        split; [|split; [|split; [|split; [|split; [|split; [auto|split; [auto|]]]]]]].
        + intros a b Ha. rewrite RN by auto. rewrite slot_removelast by lia. destruct (slot R a b) as [[[t w] r]|] eqn:Q; [|reflexivity].
          cbn. unfold retgt. cbn [fst snd]. destruct (D a b) eqn:Da; [reflexivity|]. cbn [negb andb].
          pose proof (live_not_dead_row D R v a b t w r L Dv Q Da). destruct (Nat.eqb_spec t back); [congruence|reflexivity].
        + intros a Ha. rewrite RN by auto. apply rl_removelast. lia.
        + apply ML. auto.
        + apply ML. auto.
        + apply ML. auto.
        + intro GE. pose proof GE as [GL GM].
          assert (LC1 : length cont1 = length (m_cont G)) by (unfold cont1; rewrite !upd_length; auto).
          assert (LPs : length pos1 = length (m_pos G)) by (unfold pos1; rewrite !set_positions_length; auto).
          assert (PV : forall x, x < length (m_pos G) -> nth x pos1 0 = hstep first v back (nth x (m_pos G) 0)).
          { intros x Hx. unfold pos1. rewrite nth_set_positions by auto. unfold cv. rewrite (groups_mem n (m_cont G) (m_pos G) v x) by auto.
            unfold hstep, renb. destruct (Nat.eqb_spec (nth x (m_pos G) 0) v); [reflexivity|]. destruct (Nat.eqb_spec (nth x (m_pos G) 0) back); [congruence|reflexivity]. }
          split; [|split; [exact LPs|exact PV]]. apply (groups_step n (m_cont G) (m_pos G) first v); auto.
          { rewrite length_removelast, LC1. lia. }
          intros p Hp. rewrite nth_removelast by (rewrite LC1; lia). fold back. rewrite RN by auto.
          destruct (Nat.eqb_spec p first) as [->|Np].
          { unfold cont1. rewrite nth_upd_neq by lia. rewrite nth_upd_eq by lia. reflexivity. }
          { unfold cont1. rewrite nth_upd_neq by (unfold back in *; lia). rewrite nth_upd_neq by auto. reflexivity. } }
    destruct STEP as (G1 & E1 & N1 & SL1 & RL1 & EQd & EQp & EQc & EQn & EQo & GR1).
    destruct (rename_ok D R v (m_rows G1) L ltac:(lia) Dv) as (L1 & LS1 & CN1); auto; try (rewrite NR; auto; fail).
    rewrite NR in *. fold back in L1, LS1, CN1.
    assert (NvI : ~ In v vs) by (intro X; apply Hlt in X; lia).
    assert (DX : forall a b, a < n - 1 -> dren D v back a b = mem vs a b).
    { intros a b Ha. unfold dren, D, mem, ren. cbn [existsb]. destruct (Nat.eqb_spec a v) as [->|Na].
      - rewrite (proj2 (mem_false vs v)) by auto. destruct (Nat.eqb_spec back v); [unfold back in *; lia|]. cbn [orb]. apply mem_false. intro X. apply Hlt in X. unfold back in *. lia.
      - destruct (Nat.eqb_spec a v); [congruence|]. reflexivity. }
    assert (N1' : m_n G1 = n - 1) by exact N1.
    destruct (IH G1) as (G' & f1 & rho1 & E' & N' & L' & LS' & LD' & LP' & LC' & VV' & CN' & NE' & NO' & RH' & F1 & F2 & F3 & F4 & GR'); auto.
    { intros x Hx. rewrite N1'. destruct (Hin x (or_intror Hx)). apply Hlt in Hx. lia. }
    { rewrite N1'. lia. }
    { apply linked_ext with (D := dren D v back); [|auto]. intros a b Hb. apply DX. apply rl_lt in Hb. lia. }
    { rewrite EQd, length_move_last. lia. } { rewrite EQp, length_move_last. lia. } { rewrite EQc, length_move_last. lia. }
    rewrite N1' in *.
    assert (LSX : forall phi u, u < n - 1 -> ls (mem vs) (m_rows G1) phi u = ls D R (fun t w => phi (hstep first v back t) w) (ren v back u)).
    { intros phi u Hu. rewrite (ls_D_ext (mem vs) (dren D v back)) by (intros e _; symmetry; apply DX; auto). rewrite LS1 by auto. apply ls_live_ext.
      intros e t w r Q De. pose proof (live_not_dead_row D R v _ e t w r L Dv Q De). unfold hstep. destruct (Nat.eqb_spec t v); [congruence|reflexivity]. }
    assert (HR : forall y, y < n - 1 -> hstep first v back (ren v back y) = y).
    { intros y Hy. unfold hstep. destruct (Nat.eqb_spec (ren v back y) v) as [X|]; [exfalso; revert X; apply ren_neq; auto|]. apply renb_ren. unfold back; lia. }
    assert (HL : forall x, x < n -> hstep first v back x < n - 1).
    { intros x Hx. unfold hstep, renb. destruct (Nat.eqb_spec x v); [lia|]. destruct (Nat.eqb_spec x back); unfold back in *; lia. }
    exists G', (fun x => f1 (hstep first v back x)), (fun u => ren v back (rho1 u)).
    split; [rewrite E1; auto|]. split; [cbn [length]; lia|]. split; [auto|]. split.
    { intros phi u Hu. rewrite LS' by auto. destruct (RH' u Hu) as [Hr _]. rewrite LSX by auto. reflexivity. }
    split; [auto|]. split; [auto|]. split; [auto|]. split.
    { intros u Hu. destruct (VV' u Hu) as [A [B C]]. destruct (RH' u Hu) as [Hr _]. rewrite A, B, C, EQd, EQp, EQc.
      rewrite !nth_move_last by lia. rewrite LD, LP, LC. auto. }
    split.
    { rewrite CN', <- CN1, N1. apply bsum_ext. intros u Hu. apply ls_D_ext. intros e _. symmetry. apply DX. auto. }
    split; [congruence|]. split; [congruence|]. split.
    { intros u Hu. destruct (RH' u Hu) as [Hr [Hni Hfr]]. split; [apply ren_lt; auto|]. split.
      - intros [X|X].
        + symmetry in X. revert X. apply ren_neq; auto.
        + unfold ren in X. destruct (Nat.eqb_spec (rho1 u) v) as [Y|]; [|contradiction]. apply Hlt in X. unfold back in *. lia.
      - rewrite HR by auto. auto. }
    split; [intros x Hx; apply F1; auto|]. split.
    { intros x Hx Nx. assert (Nxv : x <> v) by (intros ->; apply Nx; left; auto).
      rewrite F2.
      - unfold hstep. destruct (Nat.eqb_spec x v); [congruence|]. apply ren_renb. auto.
      - apply HL. auto.
      - unfold hstep, renb. destruct (Nat.eqb_spec x v); [congruence|]. destruct (Nat.eqb_spec x back); [auto|]. intro X. apply Nx. right. auto. }
    split.
    { intros x [<-|Hx].
      - unfold hstep. rewrite Nat.eqb_refl. auto.
      - pose proof (Hlt x Hx). unfold hstep, renb. destruct (Nat.eqb_spec x v); [lia|]. destruct (Nat.eqb_spec x back); [unfold back in *; lia|]. auto. }
    split.
    { unfold hstep, renb. destruct (Nat.eqb_spec first v); [lia|]. destruct (Nat.eqb_spec first back); [unfold back in *; lia|]. auto. }
    intro GE. destruct (GR1 GE) as [GE1 [LL PV]]. destruct (GR' GE1) as [GE2 [LL2 PV2]]. split; [auto|]. split; [congruence|].
    intros x Hx. rewrite PV2 by lia. rewrite PV by auto. reflexivity.
Qed.
