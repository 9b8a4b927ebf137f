(* P_IsoFlow3.v - maximumIsolatingFlow and maximumSTFlow. *)
From Coq Require Import Permutation.
From Verif Require Import SpecFlow P_Cut P_Mutable P_Multi P_Kernel P_KernelC P_Kernel3 P_Kernel5 P_Iso M_IsoFlow P_Flow6 P_IsoFlow P_IsoFlow2.

(** terminals whose flow is marked as known are their own minimum isolating sets *)
Definition flags_ok (G : mg) (T : list nat) (old : list term) : Prop :=
  forall p i, In (p, i, false) old -> In p T -> exists c, min_isolating (m_n G) (wt (adj (m_rows G))) T p (fun u => u =? p) c.

Lemma terms_of G maps origs T old : kstate G maps origs T -> exists ts, set_terms G maps origs old = Some ts /\
  map t_at ts = live G T /\ (forall t, In t ts -> t_id t < length T /\ t_at t = nth (t_id t) T 0 /\ t_inv t = flag_at old (t_at t)) /\
  map t_id ts = filter (fun i => 0 <? length (nth (nth i T 0) (m_rows G) [])) (seq 0 (length T)).
Proof.
  intro KS. unfold set_terms. rewrite (set_terminals_full G maps origs T 0 (ks_pos _ _ _ _ KS) (ks_lt _ _ _ _ KS)). cbn [option_map].
  eexists. split; [reflexivity|]. split; [|split].
  - rewrite map_map. unfold live.
    assert (X : forall l k, map (fun x : nat * nat => t_at (x, flag_at old (fst x))) (filter (fun p => 0 <? length (nth (fst p) (m_rows G) [])) (combine l (seq k (length l)))) =
      filter (fun v => 0 <? length (nth v (m_rows G) [])) l); [|apply X].
    induction l as [|a l IH]; intro k; [reflexivity|]. cbn [length seq combine filter fst].
    destruct (0 <? length (nth a (m_rows G) [])); cbn [map fst snd t_at]; [f_equal|]; apply (IH (S k)).
  - intros t Ht. apply in_map_iff in Ht. destruct Ht as ([v i] & <- & H). apply filter_In in H. destruct H as [H _]. cbn.
    apply In_nth with (d := (0, 0)) in H. rewrite combine_length, seq_length, Nat.min_id in H. destruct H as (j & Hj & E). rewrite combine_nth in E by (rewrite seq_length; auto).
    rewrite seq_nth in E by auto. injection E as <- <-. auto.
  - rewrite map_map. unfold t_id. cbn [fst snd].
    assert (X : forall l k, (forall i, i < length l -> nth (k + i) T 0 = nth i l 0) ->
      map (fun x : nat * nat => snd x) (filter (fun p => 0 <? length (nth (fst p) (m_rows G) [])) (combine l (seq k (length l)))) =
      filter (fun i => 0 <? length (nth (nth i T 0) (m_rows G) [])) (seq k (length l))).
    { induction l as [|a l IH]; intros k H; [reflexivity|]. cbn [length seq combine filter fst]. pose proof (H 0 ltac:(cbn; lia)) as E. rewrite Nat.add_0_r in E. cbn [nth] in E. rewrite E.
      assert (Y : forall i, i < length l -> nth (S k + i) T 0 = nth i l 0) by (intros i Hi; pose proof (H (S i) ltac:(cbn; lia)) as Q; cbn [nth] in Q; rewrite <- Q; f_equal; lia).
      destruct (0 <? length (nth a (m_rows G) [])); cbn [map snd]; [f_equal|]; apply IH; auto. }
    apply X. reflexivity.
Qed.

Lemma sumN_live (dg : nat -> N) (p : nat -> bool) k : (forall i, i < k -> p i = false -> dg i = 0%N) -> sumN dg (filter p (seq 0 k)) = bsum k dg.
Proof.
  intro H. rewrite sumN_filter. apply sumN_ext. intros i Hi. apply in_seq in Hi. destruct (p i) eqn:E; [reflexivity|]. symmetry. apply H; [lia|auto].
Qed.

Lemma big_one (s : nat) l : NoDup l -> In s l -> big l = false -> forall v, mem l v = (v =? s).
Proof.
  intros Nd Hs B v. unfold big in B. apply Nat.ltb_ge in B. destruct l as [|a [|b l]]; [contradiction| |cbn in B; lia].
  destruct Hs as [->|[]]. unfold mem. cbn. apply orb_false_r.
Qed.

Theorem isolating_flow_pos pick gl par ord maps origs G T old deleted : (forall l, Permutation (ord l) l) -> (forall i k q, q <> [] -> In (pick i k q) q) ->
  kstate G maps origs T -> 0 < length T -> flags_ok G T old ->
  exists F, forall fuel, F <= fuel -> exists G' ts' up lo T', isolating_flow fuel pick gl par ord maps origs G old deleted = Some (G', ts', up, lo) /\
    kstate G' maps origs T' /\ map t_at ts' = live G' T' /\
    (forall c, mtopt (m_n G) (wt (adj (m_rows G))) T c <-> mtopt (m_n G') (wt (adj (m_rows G'))) T' c) /\
    (forall f, separates (m_n G') T' f -> (lo <= deleted + mtcost (m_n G') (wt (adj (m_rows G'))) f)%N) /\
    separates (m_n G') T' (fun v => nth v (m_part G') 0) /\
    (deleted + mtcost (m_n G') (wt (adj (m_rows G'))) (fun v => nth v (m_part G') 0%nat) <= up)%N /\
    (forall t, In t T' -> exists c, min_isolating (m_n G') (wt (adj (m_rows G'))) T' t (fun u => u =? t) c) /\
    exists g, T' = map g T /\ length (m_pos G') = length (m_pos G) /\ (forall x, x < length (m_pos G) -> nth x (m_pos G') 0 = g (nth x (m_pos G) 0)) /\ (forall p, p < m_n G -> g p < m_n G') /\
      forall f, mtcost (m_n G') (wt (adj (m_rows G'))) f = mtcost (m_n G) (wt (adj (m_rows G))) (fun u => f (g u)).
Proof.
  intros OP Hp KS PT FO. pose proof KS as [A1 A2 A3 A4 A5 A6 A7 A8]. set (n := m_n G) in *. set (W := wt (adj (m_rows G))) in *.
  destruct (terms_of G maps origs T old KS) as (ts & Ets & TA & TI & TD).
  assert (LL : forall t, In t (live G T) -> t < length (m_rows G)) by (intros t Ht; apply filter_In in Ht; apply A7; tauto).
  assert (LN : NoDup (live G T)) by (apply NoDup_filter; auto).
  destruct (runs_ok (m_rows G) (live G T) pick gl (proj1 A1) LL LN Hp) as (F & bs & B1 & B2 & B3). exists F. intros fuel Hf.
  unfold isolating_flow. rewrite Ets, TA.
  assert (LT : length ts = length (live G T)) by (rewrite <- TA, map_length; auto).
  assert (LB : length bs = length ts) by (rewrite LT, <- B1, map_length; auto).
  destruct (iso_blocks_ok (fun k => solve_max_flow fuel (pick k) (gl k) (m_rows G) (live G T) k) par ts bs LB) as (bls & -> & C1 & C2).
  { intros i Hi. apply (B3 fuel Hf). lia. }
  set (lb := filter (fun p => big (snd p)) (flow_of bs ts)).
  assert (HB : forall s l, In (s, l) lb -> In s (live G T) /\ good_block (m_rows G) (live G T) s l).
  { intros s l H. apply filter_In in H. destruct H as [H _]. apply flow_of_In in H. destruct H as (i & Hi & _ & E & _). assert (X : In (s, l) bs) by (rewrite <- E; apply nth_In; auto).
    split; [|auto]. rewrite <- B1. apply in_map_iff. exists (s, l). auto. }
  assert (BR : forall b v, In b bls -> In v b -> v < n).
  { intros b v Hb Hv. destruct (C2 b v Hb Hv) as [X|(t & Ht & ->)].
    - apply in_map_iff in X. destruct X as ([s l] & E & X). cbn in E. subst l. apply flow_of_In in X. destruct X as (i & Hi & _ & E & _).
      assert (X : In (s, b) bs) by (rewrite <- E; apply nth_In; auto). destruct (B2 s b X) as (_ & R & _). apply R. auto.
    - apply (LL (t_at t)). rewrite <- TA. apply in_map. auto. }
  destruct (contract_blocks_ok ord G bls lb OP A1 A2 A3 A4 A5 (eq_sym C1) BR) as (G1 & g & done & -> & CS & GC).
  assert (NDb : NoDup (map fst lb)).
  { assert (X : NoDup (map fst (flow_of bs ts))) by (apply flow_of_keys; rewrite B1; auto). revert X. unfold lb. generalize (flow_of bs ts). clear.
    induction l as [|[a b] l IH]; cbn [filter map]; intro N; [constructor|]. inversion N as [|? ? N1 N2]. subst. destruct (big (snd (a, b))); [|auto]. cbn [map]. constructor; [|auto].
    intro X. apply N1. apply in_map_iff in X. destruct X as (p & E & Hq). apply filter_In in Hq. cbn [fst] in E. rewrite <- E. apply in_map. tauto. }
  assert (SM : forall s, In s (live G T) -> ~ In s (map fst lb) -> exists c, min_isolating n W T s (fun u => u =? s) c).
  { intros s Hs Ns. rewrite <- B1 in Hs. apply in_map_iff in Hs. destruct Hs as ([s' l] & E & Hb). cbn in E. subst s'.
    apply In_nth with (d := (0, [])) in Hb. destruct Hb as (i & Hi & Ei).
    assert (Es : t_at (nth i ts (0, 0, false)) = s).
    { change s with (fst (s, l)). rewrite <- Ei. rewrite <- (map_nth t_at ts (0, 0, false) i), <- (map_nth fst bs (0, []) i). rewrite TA, B1. apply nth_indep. lia. }
    assert (It : In (nth i ts (0, 0, false)) ts) by (apply nth_In; lia). destruct (TI _ It) as (_ & _ & Fl). rewrite Es in Fl.
    assert (Hl : In s (live G T)) by (rewrite <- TA, <- Es; apply in_map; auto).
    destruct (t_inv (nth i ts (0, 0, false))) eqn:Ti.
    - assert (Hb : In (s, l) bs) by (rewrite <- Ei; apply nth_In; auto). pose proof (B2 s l Hb) as GB.
      assert (Bl : big l = false).
      { destruct (big l) eqn:Bl; [|auto]. exfalso. apply Ns. apply in_map_iff. exists (s, l). split; [auto|]. apply filter_In. split; [|auto]. apply flow_of_In. exists i. split; [auto|]. split; [lia|auto]. }
      destruct (live_block G T s l Hl GB) as [c M]. exists c. destruct GB as (Ndl & _ & _).
      apply (min_iso_ext G T s (mem l)); [|auto|apply A7; apply filter_In in Hl; tauto|auto]. intros v _. apply big_one; auto. apply mem_In. apply M.
    - symmetry in Fl. apply flag_at_false in Fl. destruct Fl as [j Hj]. apply (FO s j Hj). apply filter_In in Hl. tauto. }
  pose proof CS as [V1 P1 C1' GR1 LN1 PS CL CT _].
  set (db := disjoint_blocks (map as_set lb) (fun _ => false)) in *. set (T1 := map g T).
  assert (ST : safe_pairs n W T (together db)) by (apply (classes_safe G maps origs T KS lb HB NDb)).
  assert (CM : forall t, In t T -> exists c, min_isolating n W T t (fun u => g u =? g t) c) by (intros t Ht; apply (class_min G maps origs T KS lb HB NDb SM g GC t Ht)).
  assert (ND1 : NoDup T1).
  { unfold T1. apply (NoDup_nth (map g T) 0). rewrite map_length. intros i j Hi Hj E.
    rewrite !(nth_indep (map g T) 0 (g 0)), !map_nth in E by (rewrite map_length; auto).
    destruct (CM (nth i T 0)) as [c [[_ D] _]]; [apply nth_In; auto|]. destruct (Nat.eq_dec (nth j T 0) (nth i T 0)) as [Q|Q]; [symmetry; apply (proj1 (NoDup_nth T 0) A8); auto|].
    specialize (D (nth j T 0) (nth_In _ _ Hj) Q). cbn beta in D. apply Nat.eqb_neq in D. congruence. }
  assert (NT1 : forall i, i < length T -> nth i T1 0 = g (nth i T 0)).
  { intros i Hi. unfold T1. rewrite (nth_indep (map g T) 0 (g 0)) by (rewrite map_length; auto). apply map_nth. }
  assert (AP1 : at_positions G1 maps origs T1).
  { destruct A6 as [LTT AP]. split; [unfold T1; rewrite map_length; auto|]. intros i o Ho. destruct (AP i o Ho) as (o' & M & E). exists o'. split; [auto|].
    assert (Ho' : o' < length (m_pos G)) by (apply nth_error_Some; rewrite E; discriminate).
    rewrite (nth_error_nth' (m_pos G1) 0) by lia. f_equal. rewrite PS by auto. rewrite NT1.
    - f_equal. apply nth_error_nth with (d := 0) in E. auto.
    - rewrite LTT. apply nth_error_Some. rewrite Ho. discriminate. }
  assert (LT1 : forall t, In t T1 -> t < m_n G1).
  { intros t Ht. apply in_map_iff in Ht. destruct Ht as (x & <- & Hx). apply CL. auto. }
  cbv zeta. change (map (fun t : nat * nat * bool => (fst t, false)) ts) with (map (fun t : term => (fst t, false)) ts).
  set (ts1 := map (fun t : term => (fst t, false)) ts).
  assert (LT' : length T1 = length T) by (unfold T1; apply map_length).
  assert (ID1 : map t_id ts1 = map t_id ts) by (unfold ts1; rewrite map_map; apply map_ext; intros [[a b] c]; reflexivity).
  rewrite (deg_scan_ok G1 maps origs T1 AP1).
  2:{ intros t Ht. unfold ts1 in Ht. apply in_map_iff in Ht. destruct Ht as (t0 & <- & Ht). destruct (TI t0 Ht) as [X _]. rewrite LT'. exact X. }
  rewrite ID1, TD. set (dg := fun i => nth (nth i T1 0) (m_deg G1) 0%N). set (il := filter _ _).
  destruct (scan_ok dg il 0 0 0) as (mx & sm & mi & -> & Esm & _ & Dmx & Dmi).
  (* degrees are cuts *)
  set (n1 := m_n G1) in *. set (W1 := wt (adj (m_rows G1))) in *.
  assert (S0 : symm n W) by (apply W_symm; apply A1). assert (S1 : symm n1 W1) by (apply W_symm; apply V1).
  assert (PUL : forall S, cutw n1 W1 S = cutw n W (fun u => S (g u))) by (intro S; apply contraction_cut; auto; apply CL).
  assert (DC : forall i, i < length T -> dg i = cutw n1 W1 (fun v => v =? nth i T1 0)) by (intros i Hi; apply degree_cut; [auto|apply LT1, nth_In; lia]).
  assert (DP : forall i, i < length T -> dg i = cutw n W (fun u => g u =? g (nth i T 0))) by (intros i Hi; rewrite DC, PUL by auto; rewrite NT1 by auto; reflexivity).
  assert (MC : forall i, i < length T -> min_isolating n W T (nth i T 0) (fun u => g u =? g (nth i T 0)) (dg i)).
  { intros i Hi. destruct (CM (nth i T 0)) as [c M]; [apply nth_In; auto|]. rewrite DP by auto. destruct M as [M1 [M2 M3]]. split; [auto|]. split; [auto|]. rewrite M2. auto. }
  assert (SB : sm = bsum (length T) dg).
  { rewrite Esm, N.add_0_l. apply sumN_live. intros i Hi E. apply Nat.ltb_ge in E. destruct (MC i Hi) as [_ [_ Q]].
    assert (Er : nth (nth i T 0) (m_rows G) [] = []) by (destruct (nth (nth i T 0) (m_rows G) []); [auto|cbn in E; lia]).
    destruct (dead_single G maps origs T KS (nth i T 0) (nth_In _ _ Hi) Er) as [I0 [E0 _]]. fold n W in E0. specialize (Q _ I0). lia. }
  assert (Lmi : mi < length T) by (destruct Dmi as [[_ ->]|[X _]]; [auto|unfold il in X; apply filter_In in X; destruct X as [X _]; apply in_seq in X; lia]).
  destruct (part_terms_ok G1 maps origs T1 0 (repeat mi n1) AP1 LT1 ND1 (repeat_length _ _)) as (p & -> & Lp & Pt & Po).
  set (G2 := with_part G1 p).
  assert (KS2 : kstate G2 maps origs T1).
  { constructor; auto. intros q Hq E. destruct CL as [_ SJ]. destruct (SJ q Hq) as (x & Hx & Ex). pose proof (first_pos G A5 A4 x Hx) as [F1 F2].
    assert (X : In (first_of G x) (nth q (m_cont G1) [])) by (apply (proj2 GR1 q); [exact Hq|]; split; [lia|]; rewrite PS, F2 by auto; exact Ex).
    change (nth q (m_cont G1) [] = []) in E. rewrite E in X. contradiction. }
  destruct (terms_of G2 maps origs T1 ts1 KS2) as (ts2 & -> & TA2 & _).
  exists G2, ts2, (deleted + sm - mx)%N, (deleted + (sm + 1) / 2)%N, T1. split; [reflexivity|]. split; [auto|]. split; [auto|].
  change (m_rows G2) with (m_rows G1). change (m_n G2) with n1. change (m_part G2) with p. fold W1.
  assert (PB : forall f, separates n1 T1 f -> (sm <= 2 * mtcost n1 W1 f)%N).
  { intros f Ff. rewrite SB, <- LT'. apply (lower_bound n1 W1 T1 S1 f dg ND1 Ff). intros i S Hi [I1 I2]. rewrite LT' in Hi. rewrite PUL.
    apply (MC i Hi). split; [rewrite <- NT1 by auto; auto|]. intros t Ht Nt. apply I2; [apply in_map; auto|]. intro E. rewrite NT1 in E by auto.
    destruct (MC i Hi) as [[_ D] _]. specialize (D t Ht Nt). cbn beta in D. apply Nat.eqb_neq in D. contradiction. }
  assert (SPp : separates n1 T1 (fun v => nth v p 0)).
  { split.
    - intros v Hv. rewrite LT'. destruct (in_dec Nat.eq_dec v T1) as [I|I]; [apply In_nth with (d := 0) in I; destruct I as (j & Hj & <-); rewrite Pt by auto; lia|].
      rewrite Po by auto. rewrite (nth_indep _ 0 mi) by (rewrite repeat_length; auto). rewrite nth_repeat. auto.
    - intros i Hi. rewrite Pt by auto. lia. }
  split; [|split; [|split; [|split; [|split]]]].
  - intro c. apply (safe_contraction n W T (together db) g n1 W1); auto. intros u v Hu Hv E. apply GC; auto.
  - intros f Ff. pose proof (PB f Ff) as Q. assert (((sm + 1) / 2 <= mtcost n1 W1 f)%N); [|apply N.add_le_mono_l; auto]. assert (((sm + 1) / 2 < mtcost n1 W1 f + 1)%N) by (apply N.div_lt_upper_bound; lia). lia.
  - exact SPp.
  - assert (Hm : forall v, v < n1 -> ~ In v T1 -> nth v p 0 = mi).
    { intros v Hv I. rewrite Po by auto. rewrite (nth_indep _ 0 mi) by (rewrite repeat_length; auto). apply nth_repeat. }
    pose proof (upper_bound n1 W1 T1 S1 (fun v => nth v p 0) mi SPp Hm ltac:(lia)) as Q. rewrite <- (DC mi Lmi) in Q.
    rewrite (bsum_ext (length T1) _ dg) in Q by (intros i Hi; symmetry; apply DC; lia). rewrite LT', <- SB in Q.
    assert (X : (mx <= dg mi)%N) by (destruct Dmi as [[-> _]|[_ ->]]; lia). lia.
  - intros t Ht. apply In_nth with (d := 0) in Ht. destruct Ht as (i & Hi & <-). rewrite LT' in Hi. exists (dg i). destruct (MC i Hi) as [[M1 M2] [M3 M4]]. split; [|split].
    + split; [apply Nat.eqb_refl|]. intros x Hx N. apply Nat.eqb_neq. auto.
    + symmetry. apply DC. auto.
    + intros S [I1 I2]. rewrite PUL. apply M4. split; [rewrite <- NT1 by auto; auto|]. intros t Ht Nt. apply I2; [apply in_map; auto|]. intro E. rewrite NT1 in E by auto.
      specialize (M2 t Ht Nt). cbn beta in M2. apply Nat.eqb_neq in M2. contradiction.
  - exists g. split; [reflexivity|]. split; [exact LN1|]. split; [exact PS|]. split; [apply CL|]. intro f. apply contraction_cost; auto. apply CL.
Qed.

Theorem isolating_flow_ok pick gl par ord maps origs G T old deleted : (forall l, Permutation (ord l) l) -> (forall i k q, q <> [] -> In (pick i k q) q) ->
  kstate G maps origs T -> 0 < length T -> flags_ok G T old ->
  exists F, forall fuel, F <= fuel -> exists G' ts' up lo T', isolating_flow fuel pick gl par ord maps origs G old deleted = Some (G', ts', up, lo) /\
    kstate G' maps origs T' /\ map t_at ts' = live G' T' /\
    (forall c, mtopt (m_n G) (wt (adj (m_rows G))) T c <-> mtopt (m_n G') (wt (adj (m_rows G'))) T' c) /\
    (forall f, separates (m_n G') T' f -> (lo <= deleted + mtcost (m_n G') (wt (adj (m_rows G'))) f)%N) /\
    separates (m_n G') T' (fun v => nth v (m_part G') 0) /\
    (deleted + mtcost (m_n G') (wt (adj (m_rows G'))) (fun v => nth v (m_part G') 0%nat) <= up)%N /\
    (forall t, In t T' -> exists c, min_isolating (m_n G') (wt (adj (m_rows G'))) T' t (fun u => u =? t) c).
Proof.
  intros OP Hp KS PT FO. destruct (isolating_flow_pos pick gl par ord maps origs G T old deleted OP Hp KS PT FO) as (F & H). exists F. intros fuel Hf.
  destruct (H fuel Hf) as (G' & ts' & up & lo & T' & E & A1 & A2 & A3 & A4 & A5 & A6 & A7 & _). exists G', ts', up, lo, T'. repeat (split; [assumption|]). assumption.
Qed.
