(* P_Recursive7.v - proofs about internalRecursiveCactus, part 7: one step of the recursion. *)
From Coq Require Import Relations.
From Verif Require Import SpecCut SpecDyn SpecFlow SpecMutable LibZ M_Mutable P_Mutable P_Mutable7 P_Cut P_LocalSearch P_LocalSearch2 P_AllMincuts P_MutableIO M_PushRelabel P_Flow6 M_LimFlow Prop_Flow Prop_LimFlow M_Scc P_Scc Prop_StCactus P_FlowChain M_Rebuild P_Rebuild Prop_Rebuild P_IsoFlow2 P_Kernel5 P_Recursive M_StCactus M_Merge M_Branch M_Recursive P_StCactus9 P_ContractStd P_ContractStd2 P_ContractSet2 P_Merge3 P_Merge6 P_Recursive2 P_Recursive3 P_Recursive4 P_Recursive5 P_Recursive6.

Lemma slot_row (R : list (list half)) v e h : slot R v e = Some h -> In h (nth v R []). Proof. intro S. eapply nth_error_In. exact S. Qed.
Lemma row_slot (R : list (list half)) v h : In h (nth v R []) -> exists e, slot R v e = Some h. Proof. intro I. apply In_nth_error in I. exact I. Qed.

Section Small.
Context (n : nat) (c : N) (Pc : (0 < c)%N) (G : mg) (GD : good n c G).
(** a single vertex *)
Lemma one_ok : m_n G = 1 -> rep n c (mincuts_of n c G) G.
Proof.
  intro E1. destruct (gd_lens _ _ _ GD) as (Lp & Lc & Lo). destruct GD as [A1 A2 A3 A4 A5 A6 A7 A8 A9 A10 A11 A12].
  assert (NP : forall S, ~ proper 1 S). { intros S [(a & Ha & Sa) (b & Hb & Sb)]. assert (a = b) by lia. congruence. }
  constructor; auto.
  - split; [auto|]. split; [auto|]. split; [auto|]. intros v t w r I. exfalso. apply row_slot in I as (e & S). destruct (proj1 A1 v e t w r S) as (H1 & H2 & _). destruct (slot_lt _ _ _ _ S) as [H3 _]. unfold m_n in E1. lia.
  - intros a b Ha Hb Nab. lia.
  - intros f P. rewrite E1 in P. destruct (NP f P).
  - intros Y (S & P & _). rewrite E1 in P. destruct (NP S P).
Qed.
(** more than one vertex: there are edges *)
Lemma some_edges : 2 <= m_n G -> m_ne G <> 0%N.
Proof.
  intros H2 E. destruct GD as [A1 A2 A3 A4 A5 A6 A7 A8 A9 A10 A11 A12]. destruct (proj1 (proj2 A1)) as [_ D].
  assert (E0 : nth 0 (m_rows G) [] = []).
  { pose proof (proj2 (proj2 A1)) as CE. unfold count_exact in CE. rewrite E in CE. clear - CE. destruct (m_rows G) as [|row R]; [reflexivity|]. cbn [nth]. destruct row as [|h row]; [reflexivity|exfalso].
    cbn [sumN map fold_right length] in CE. unfold sumN in CE. cbn [map fold_right length] in CE. lia. }
  pose proof (degree_cut G 0 A1 ltac:(lia)) as X. rewrite D, E0 in X by (unfold m_n in H2; lia). cbn in X.
  assert (Q : (c <= cutw (m_n G) (wt (adj (m_rows G))) (fun u => Nat.eqb u 0%nat))%N). { apply A11. split; [exists 0|exists 1]; (split; [lia|reflexivity]). }
  rewrite <- X in Q. lia.
Qed.
(** two vertices and a minimum cut of weight c *)
Lemma two_ok : m_n G = 2 -> gcut G (fun u => u =? 0) = c -> rep n c (mincuts_of n c G) G.
Proof.
  intros E2 Ec. destruct (gd_lens _ _ _ GD) as (Lp & Lc & Lo). destruct GD as [A1 A2 A3 A4 A5 A6 A7 A8 A9 A10 A11 A12].
  assert (Sy : symm (m_n G) (wt (adj (m_rows G)))) by (apply valid_symm; apply A1).
  assert (W1 : wt (adj (m_rows G)) 0 1 = c).
  { unfold gcut in Ec. rewrite E2 in Ec. unfold cutw in Ec. cbn in Ec. rewrite !N.add_0_r in Ec. lia. }
  assert (W2 : wt (adj (m_rows G)) 1 0 = c). { rewrite <- W1. apply Sy; lia. }
  constructor; auto.
  - split; [auto|]. split; [auto|]. split; [auto|]. intros v t w r I. left. pose proof I as I0. apply row_slot in I as (e & S). destruct (proj1 A1 v e t w r S) as (H1 & H2 & _). destruct (slot_lt _ _ _ _ S) as [H3 _].
    fold (m_n G) in *. change (length (m_rows G)) with (m_n G) in *. rewrite E2 in *.
    pose proof (edge_simple (m_rows G) v t w r A9 I0) as X.
    assert ((v = 0 /\ t = 1) \/ (v = 1 /\ t = 0)) as [[-> ->]|[-> ->]] by lia; congruence.
  - intros a b Ha Hb Nab. exists (fun u => u =? 0). split; [|exact Ec]. rewrite E2 in *. assert ((a = 0 /\ b = 1) \/ (a = 1 /\ b = 0)) as [[-> ->]|[-> ->]] by lia; discriminate.
  - intros f P E. exists f. auto.
  - intros Y (S & P & E & A). exists S. split; [auto|]. intros x Hx. symmetry. auto.
Qed.
End Small.

Section Step.
Context (n : nat) (c : N) (Pc : (0 < c)%N) (Wc : (c < 2 ^ 32)%N) (G : mg) (GD : good n c G) (ord : list nat -> list nat) (Or : forall l, Permutation (ord l) l) (bfs : nat).
Context (sel : nat -> mg -> option (nat * nat * nat)) (flow : nat -> mg -> nat -> nat -> option (N * list (list Z))) (rec : nat -> mg -> option (mg * nat)) (pid : nat).
Context (Rec : forall pid H, good n c H -> m_n H < m_n G -> exists N pid', rec pid H = Some (N, pid') /\ rep n c (mincuts_of n c H) N).
Context (s e t : nat) (w : N) (r : nat) (Sl : slot (m_rows G) s e = Some (t, w, r)).
Context (x : N) (fl : list (list Z)) (MF : max_flow (m_rows G) [s; t] s (fun v e => nth e (nth v fl []) 0%Z) (Z.of_N x)).

Lemma ends_ok : s < m_n G /\ t < m_n G /\ s <> t /\ (0 < wt (adj (m_rows G)) s t)%N.
Proof.
  destruct (proj1 (gd_valid _ _ _ GD) s e t w r Sl) as (A & B & _). destruct (slot_lt _ _ _ _ Sl) as [C _]. split; [exact C|]. split; [exact A|]. split; [auto|].
  pose proof (slot_row _ _ _ _ Sl) as I. rewrite <- (edge_simple (m_rows G) s t w r (gd_nopar _ _ _ GD) I). apply N.neq_0_lt_0. apply (gd_nozero _ _ _ GD s t w r I).
Qed.
Lemma flow_low S : S s <> S t -> (x <= gcut G S)%N.
Proof.
  intro D. destruct (mf_cut _ _ _ _ _ MF) as (S0 & c' & ((Ss & St) & Ec & Lo) & Ex). apply N2Z.inj in Ex. rewrite <- Ex in *. clear Ex c'. unfold gcut.
  assert (Sy : symm (m_n G) (wt (adj (m_rows G)))) by (apply valid_symm; apply (gd_valid _ _ _ GD)).
  destruct (S s) eqn:E.
  - apply Lo. split; [auto|]. intros y [<-|[<-|[]]] Ny; [contradiction|]. destruct (S t); congruence.
  - rewrite <- (cutw_compl (m_n G) _ S Sy). apply Lo. split; [rewrite E; reflexivity|]. intros y [<-|[<-|[]]] Ny; [contradiction|]. destruct (S t); [reflexivity|congruence].
Qed.
Lemma flow_cut : exists S, S s = true /\ S t = false /\ gcut G S = x.
Proof.
  destruct (mf_cut _ _ _ _ _ MF) as (S0 & c' & ((Ss & St) & Ec & Lo) & Ex). apply N2Z.inj in Ex. rewrite <- Ex in *. clear Ex c'. exists S0. split; [auto|]. split; [|auto].
  apply St; [right; left; auto|]. apply not_eq_sym. apply ends_ok.
Qed.
Lemma flow_ge : (c <= x)%N.
Proof.
  destruct flow_cut as (S & Ss & St & <-). destruct ends_ok as (Hs & Ht & _). apply (gd_low _ _ _ GD). split; [exists s|exists t]; auto.
Qed.

Lemma block_ok fpid : x = c ->
  ((nth s (m_deg G) 0%N <> c /\ nth t (m_deg G) 0%N <> c) \/ exists S S' u, u < m_n G /\ gcut G S = c /\ gcut G S' = c /\ S s <> S t /\ S' s <> S' t /\ S s = S' s /\ S u <> S' u) -> 2 < m_n G ->
  exists o, strong_components scc_new (res_rows (Some fpid) (stored fpid (m_rows G) fl)) = Some o /\
    ((s_cc o =? 2) && ((nth s (m_deg G) 0 =? c)%N || (nth t (m_deg G) 0 =? c)%N) = false) /\
    exists M pid', block_branch c ord bfs rec G o s fpid = Some (M, pid') /\ rep n c (mincuts_of n c G) M.
Proof.
  intros -> NL N2. destruct ends_ok as (Hs & Ht & Nst & Wst). pose proof (gd_valid _ _ _ GD) as VG. assert (V : valid_rows (m_rows G)) by apply VG.
  pose proof (stored_ok fpid (m_rows G) fl) as ST. set (E := stored fpid (m_rows G) fl) in *.
  destruct (components_ok (m_rows G) V s t Hs Ht Nst _ fpid E ST) as (o & Eo & Lv & CL & Top & Same). cbv zeta in *. pose proof (sizes_ok (m_rows G) _ fpid E o V ST Eo) as Bs.
  set (f := fun u => nth u (comp_vector o) 0) in *.
  pose proof (st_apart (m_rows G) V s t Hs Ht Nst _ c MF fpid E ST f Same) as Nf.
  pose proof (st_cap (m_rows G) s t _ c MF fpid E ST) as Cap. pose proof (st_out (m_rows G) V s t Hs Ht Nst _ c MF fpid E ST) as Out. set (flw := flows_of fpid E) in *.
  change (length (m_rows G)) with (m_n G) in *.
  assert (K2 : 2 <= s_cc o) by (pose proof (proj1 CL s Hs); pose proof (proj1 CL t Ht); lia).
  assert (Wh : forall S, gcut G S = c -> S s <> S t -> whole (m_n G) f S).
  { intros S ES D. apply (mincut_whole2 (m_rows G) V flw (Z.of_N c) s t Hs Ht Nst Cap Out f (s_cc o) Top Same c eq_refl S ES D). }
  destruct (chain_edge (m_rows G) flw (Z.of_N c) s t Hs Ht Nst Out f (s_cc o) CL Top c eq_refl (gd_low _ _ _ GD) K2 Pc Wst) as (Ch & Fs & Ft).
  change (length (m_rows G)) with (m_n G) in *.
  assert (Pre : forall i, i < s_cc o - 1 -> gcut G (fun u => f u <=? i) = c) by (intros i Hi; apply (sc_pref _ _ _ _ _ Ch i Hi)).
  assert (NLeaf : s_cc o = 2 -> nth s (m_deg G) 0%N <> c /\ nth t (m_deg G) 0%N <> c).
  { intro K. destruct NL as [NL|(S & S' & u & Hu & ES & ES' & D & D' & Eq & Nq)]; [auto|exfalso].
    assert (fu : f u = f s \/ f u = f t). { rewrite Fs, Ft, K. pose proof (proj1 CL u Hu). lia. }
    pose proof (Wh S ES D) as W1. pose proof (Wh S' ES' D') as W2.
    destruct fu as [Q|Q]; [rewrite (W1 u s Hu Hs Q), (W2 u s Hu Hs Q) in Nq; contradiction|rewrite (W1 u t Hu Ht Q), (W2 u t Hu Ht Q) in Nq]. destruct (S s), (S t), (S' s), (S' t); congruence. }
  exists o. split; [exact Eo|]. split.
  { destruct (Nat.eqb_spec (s_cc o) 2) as [K|]; [|reflexivity]. destruct (NLeaf K) as [N1 N3]. apply N.eqb_neq in N1, N3. rewrite N1, N3. reflexivity. }
  assert (Two : forall cc, cc < s_cc o -> exists u w, u < m_n G /\ w < m_n G /\ u <> w /\ f u <> cc /\ f w <> cc).
  { intros cc Hcc. destruct (Nat.eq_dec (s_cc o) 2) as [K|K].
    - destruct (NLeaf K) as [N1 N3]. rewrite (degree_cut G s VG Hs) in N1. rewrite (degree_cut G t VG Ht) in N3.
      assert (Pf : gcut G (fun u => f u =? 0) = c). { rewrite <- (Pre 0 ltac:(lia)). apply gcut_ext. intros u _. destruct (f u); reflexivity. }
      assert (Pf1 : gcut G (fun u => f u =? 1) = c).
      { rewrite <- Pf. unfold gcut. rewrite <- (cutw_compl (m_n G) _ (fun u => f u =? 0) (valid_symm _ V)). apply cutw_ext. intros u Hu. pose proof (proj1 CL u Hu). destruct (Nat.eqb_spec (f u) 0), (Nat.eqb_spec (f u) 1); cbn; auto; lia. }
      assert (Oth : forall a q, a < m_n G -> f a = q -> gcut G (fun u => f u =? q) = c -> cutw (m_n G) (wt (adj (m_rows G))) (fun u => u =? a) <> c -> exists b, b < m_n G /\ b <> a /\ f b = q).
      { intros a q Ha Fa Eq Na. destruct (existsb (fun b => (f b =? q) && negb (b =? a)) (seq 0 (m_n G))) eqn:X.
        - apply existsb_exists in X as (b & Ib & X). apply in_seq in Ib. apply andb_true_iff in X as [X1 X2]. apply Nat.eqb_eq in X1. apply negb_true_iff, Nat.eqb_neq in X2. exists b. split; [lia|auto].
        - exfalso. apply Na. rewrite <- Eq. apply cutw_ext. intros b Hb. destruct (Nat.eqb_spec b a) as [->|Nb]; [symmetry; apply Nat.eqb_eq; auto|]. symmetry. apply Nat.eqb_neq. intro Q.
          assert (existsb (fun b => (f b =? q) && negb (b =? a)) (seq 0 (m_n G)) = true); [|congruence]. apply existsb_exists. exists b. split; [apply in_seq; lia|]. rewrite Q, Nat.eqb_refl. apply Nat.eqb_neq in Nb. rewrite Nb. reflexivity. }
      rewrite K in *. cbn [Nat.sub] in Ft. assert (cc = 0 \/ cc = 1) as [->| ->] by lia.
      + destruct (Oth t 1 Ht Ft Pf1 N3) as (b & Hb & Nb & Fb). exists t, b. split; [auto|]. split; [auto|]. split; [auto|]. lia.
      + destruct (Oth s 0 Hs Fs Pf N1) as (b & Hb & Nb & Fb). exists s, b. split; [auto|]. split; [auto|]. split; [auto|]. lia.
    - assert (exists a b, a < s_cc o /\ b < s_cc o /\ a <> b /\ a <> cc /\ b <> cc) as (a & b & Ha & Hb & Nab & Nac & Nbc).
      { destruct cc as [|[|cc]]; [exists 1, 2; lia|exists 0, 2; lia|exists 0, 1; lia]. }
      destruct (proj2 CL a Ha) as (u & Hu & Fu), (proj2 CL b Hb) as (y & Hy & Fy). exists u, y. split; [auto|]. split; [auto|]. split; [intro Q; subst y; congruence|]. split; congruence. }
  unfold block_branch.
  pose proof (gd_full _ _ _ GD s Hs) as Fu. destruct (nth s (m_cont G) []) as [|x0 l0] eqn:Q0; [congruence|].
  assert (I0 : In x0 (nth s (m_cont G) [])) by (rewrite Q0; left; auto). apply (proj2 (gd_groups _ _ _ GD) s x0 Hs) in I0. rewrite (gd_lp _ _ _ GD) in I0. destruct I0 as [Hx0 Px0].
  destruct (C72_st_cactus G (comp_vector o) s (s_cc o) c x0) as (M & g & EM & SM); auto.
  { rewrite Lv. auto. } { rewrite (gd_orig _ _ _ GD), (gd_lp _ _ _ GD). auto. } { rewrite Q0. reflexivity. } { rewrite (gd_orig _ _ _ GD). auto. }
  rewrite EM. pose proof (st_rep n c G _ M g GD SM) as RM.
  set (cs := filter _ (seq 0 (s_cc o)) ++ filter _ (seq 0 (s_cc o))).
  assert (Ics : forall cc, In cc cs <-> cc < s_cc o).
  { intro cc. unfold cs. rewrite in_app_iff, !filter_In, in_seq. split; [intros [[A _]|[A _]]; lia|]. intro A. destruct (Nat.leb_spec (2 * nth cc (s_bs o) 0) (m_n G)); [left; split; [lia|auto]|right; split; [lia|apply Nat.ltb_lt; auto]]. }
  assert (NDs : NoDup cs).
  { unfold cs. apply NoDup_app_intro; [apply NoDup_filter, seq_NoDup|apply NoDup_filter, seq_NoDup|]. intros y A B. apply filter_In in A as [_ A]. apply filter_In in B as [_ B]. apply Nat.leb_le in A. apply Nat.ltb_lt in B. lia. }
  destruct (components_fold n c Pc G GD ord Or bfs rec Rec (comp_vector o) (s_bs o) Lv Bs (s_cc o) CL K2 Pre Two cs [] M fpid) as (M' & pid' & EF & RF); auto.
  { intros cc I. apply Ics. auto. }
  assert (Al : forall cc, cc < s_cc o -> In cc (rev cs ++ [])) by (intros cc Hcc; rewrite app_nil_r, <- in_rev; apply Ics; auto).
  exists M', pid'. split; [exact EF|]. apply (rep_iff n c _ _ M' (cuts_family n c G GD _) (all_merged n c G GD (comp_vector o) (s_cc o) CL Pre (rev cs ++ []) s t Hs Ht Fs Ft Wh Al) RF).
Qed.

Lemma step_ok : 2 <= m_n G -> sel pid G = Some (s, e, t) -> flow (S pid) G s t = Some (x, fl) ->
  (2 < m_n G -> (nth s (m_deg G) 0%N <> c /\ nth t (m_deg G) 0%N <> c) \/ exists S S' u, u < m_n G /\ gcut G S = c /\ gcut G S' = c /\ S s <> S t /\ S' s <> S' t /\ S s = S' s /\ S u <> S' u) ->
  exists M pid', inner_cactus c sel flow ord bfs rec G pid = Some (M, pid') /\ rep n c (mincuts_of n c G) M.
Proof.
  intros N2 Es Ef NL. destruct ends_ok as (Hs & Ht & Nst & Wst). unfold inner_cactus. destruct (Nat.eqb_spec (m_n G) 1); [lia|]. cbn [orb]. pose proof (some_edges n c Pc G GD N2) as NE. apply N.eqb_neq in NE. rewrite NE, Es, Ef.
  pose proof flow_ge as Ge. destruct (N.ltb_spec c x) as [Lt|Le].
  - destruct (edge_ok n c G GD s e t w r Sl Nst) as (H & h & EH & GH & Less & CL & ME & CO & PO). rewrite EH.
    destruct (Rec (S pid) H GH Less) as (NN & pid' & ER & RN). exists NN, pid'. split; [exact ER|].
    apply (rep_iff n c _ _ NN (mincuts_family n c H GH)); [|exact RN]. apply (edge_cuts n c G GD s t H h); auto.
    intros S P E. destruct (Bool.bool_dec (S s) (S t)) as [|D]; [auto|]. pose proof (flow_low S D). lia.
  - assert (x = c) as Ex by lia. destruct (Nat.eqb_spec (m_n G) 2) as [E2|N3].
    + exists G, (S pid). split; [reflexivity|]. apply two_ok; auto. destruct flow_cut as (S & Ss & St & ES). rewrite <- Ex, <- ES.
      assert ((s = 0 /\ t = 1) \/ (s = 1 /\ t = 0)) as [[-> ->]|[-> ->]] by lia.
      * apply gcut_ext. intros u Hu. assert (u = 0 \/ u = 1) as [->| ->] by lia; cbn; auto.
      * unfold gcut. rewrite <- (cutw_compl (m_n G) _ S (valid_symm _ (proj1 (gd_valid _ _ _ GD)))). apply cutw_ext. intros u Hu. assert (u = 0 \/ u = 1) as [->| ->] by lia; cbn; [rewrite St|rewrite Ss]; reflexivity.
    + destruct (block_ok (S pid) Ex (NL ltac:(lia)) ltac:(lia)) as (o & Eo & NLf & M & pid' & EM & RM). rewrite Eo, NLf. eauto.
Qed.
End Step.
