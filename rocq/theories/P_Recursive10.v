(* P_Recursive10.v - proofs about internalRecursiveCactus, part 10: one step of the recursion in every case. *)
From Coq Require Import Relations.
From Verif Require Import SpecCut SpecDyn SpecFlow SpecMutable LibZ M_Mutable P_Mutable P_Mutable7 P_Cut P_LocalSearch P_LocalSearch2 P_AllMincuts P_MutableIO M_PushRelabel P_Flow6 M_LimFlow Prop_Flow Prop_LimFlow M_Scc P_Scc Prop_StCactus P_FlowChain M_Rebuild P_Rebuild Prop_Rebuild P_IsoFlow2 P_Kernel5 P_Recursive M_StCactus M_Merge M_Branch M_Recursive P_StCactus9 P_ContractStd P_ContractStd2 P_ContractSet2 P_Merge3 P_Merge6 P_Recursive2 P_Recursive3 P_Recursive4 P_Recursive5 P_Recursive6 P_Recursive7 P_Leaf P_Recursive9.

Lemma live_good n c G : good_live n c (fun _ => True) G -> good n c G.
Proof.
  intros [A1 A2 A3 A4 A5 A6 A7 A8 A9 A10 A11 A12]. constructor; auto. split; [lia|]. intros p x Hp. rewrite (A6 p x Hp), A4. tauto.
Qed.
Lemma live_cuts n c G Y : mincuts_live n c (fun _ => True) G Y <-> mincuts_of n c G Y.
Proof. split; intros (S & A & B & C); exists S; (split; [auto|]); (split; [auto|]); intros x Hx; auto. Qed.

Section Step.
Context (n : nat) (c : N) (Pc : (0 < c)%N) (Wc : (c < 2 ^ 32)%N) (G : mg) (GD : good n c G) (ord : list nat -> list nat) (Or : forall l, Permutation (ord l) l) (bfs : nat).
Context (sel : nat -> mg -> option (nat * nat * nat)) (flow : nat -> mg -> nat -> nat -> option (N * list (list Z))) (rec : nat -> mg -> option (mg * nat)) (pid : nat).
Context (Rec : forall A pid H, good_live n c A H -> m_n H < m_n G -> exists N pid', rec pid H = Some (N, pid') /\ rep_live n c A (mincuts_live n c A H) N).
Context (s e t : nat) (w : N) (r : nat) (Sl : slot (m_rows G) s e = Some (t, w, r)).
Context (x : N) (fl : list (list Z)) (MF : max_flow (m_rows G) [s; t] s (fun v e => nth e (nth v fl []) 0%Z) (Z.of_N x)).

Lemma rec_good p H : good n c H -> m_n H < m_n G -> exists N pid', rec p H = Some (N, pid') /\ rep n c (mincuts_of n c H) N.
Proof.
  intros GH L. destruct (Rec (fun _ => True) p H (good_is_live n c H GH) L) as (N & p' & E & RN). exists N, p'. split; [auto|]. apply live_rep. eapply live_iff; [| |exact RN]; [tauto|]. intro Y. apply live_cuts.
Qed.

(** two blocks: the only minimum cut between the ends; more: two different ones *)
Lemma blocks_cases fpid : x = c -> exists o, strong_components scc_new (res_rows (Some fpid) (stored fpid (m_rows G) fl)) = Some o /\
  ((s_cc o = 2 /\ forall S S', gcut G S = c -> gcut G S' = c -> S s <> S t -> S' s <> S' t -> S s = S' s -> forall u, u < m_n G -> S u = S' u) \/
   (s_cc o <> 2 /\ exists S S' u, u < m_n G /\ gcut G S = c /\ gcut G S' = c /\ S s <> S t /\ S' s <> S' t /\ S s = S' s /\ S u <> S' u)).
Proof.
  intros ->. destruct (ends_ok n c G GD s e t w r Sl) as (Hs & Ht & Nst & Wst). pose proof (gd_valid _ _ _ GD) as VG. assert (V : valid_rows (m_rows G)) by apply VG.
  pose proof (stored_ok fpid (m_rows G) fl) as ST. set (E := stored fpid (m_rows G) fl) in *.
  destruct (components_ok (m_rows G) V s t Hs Ht Nst _ fpid E ST) as (o & Eo & Lv & CL & Top & Same). cbv zeta in *.
  set (f := fun u => nth u (comp_vector o) 0) in *.
  pose proof (st_apart (m_rows G) V s t Hs Ht Nst _ c MF fpid E ST f Same) as Nf.
  pose proof (st_cap (m_rows G) s t _ c MF fpid E ST) as Cap. pose proof (st_out (m_rows G) V s t Hs Ht Nst _ c MF fpid E ST) as Out. set (flw := flows_of fpid E) in *.
  change (length (m_rows G)) with (m_n G) in *.
  assert (K2 : 2 <= s_cc o) by (pose proof (proj1 CL s Hs); pose proof (proj1 CL t Ht); lia).
  assert (Wh : forall S, gcut G S = c -> S s <> S t -> whole (m_n G) f S).
  { intros S ES D. apply (mincut_whole2 (m_rows G) V flw (Z.of_N c) s t Hs Ht Nst Cap Out f (s_cc o) Top Same c eq_refl S ES D). }
  destruct (chain_edge (m_rows G) flw (Z.of_N c) s t Hs Ht Nst Out f (s_cc o) CL Top c eq_refl (gd_low _ _ _ GD) K2 Pc Wst) as (Ch & Fs & Ft).
  change (length (m_rows G)) with (m_n G) in *.
  assert (Pre : forall i, i < s_cc o - 1 -> gcut G (fun u => f u <=? i) = c) by (intros i Hi; apply (sc_pref _ _ _ _ _ Ch i Hi)).
  exists o. split; [exact Eo|]. destruct (Nat.eq_dec (s_cc o) 2) as [K|K]; [left|right]; (split; [auto|]).
  - intros S S' ES ES' D D' Eq u Hu. assert (fu : f u = f s \/ f u = f t). { rewrite Fs, Ft, K. pose proof (proj1 CL u Hu). lia. }
    pose proof (Wh S ES D) as W1. pose proof (Wh S' ES' D') as W2.
    destruct fu as [Q|Q]; [rewrite (W1 u s Hu Hs Q), (W2 u s Hu Hs Q); auto|rewrite (W1 u t Hu Ht Q), (W2 u t Hu Ht Q)]. clear - D D' Eq. destruct (S s), (S t), (S' s), (S' t); congruence.
  - destruct (proj2 CL 1 ltac:(lia)) as (u & Hu & Fu). exists (fun v => f v <=? 0), (fun v => f v <=? 1), u. split; [auto|]. split; [apply Pre; lia|]. split; [apply Pre; lia|].
    rewrite Fs, Ft, Fu. destruct (s_cc o) as [|[|[|k]]]; try (exfalso; lia). cbn. split; [discriminate|]. split; [discriminate|]. split; [reflexivity|discriminate].
Qed.

Lemma only_ctr a b : nth a (m_deg G) 0%N = c -> (forall S S', gcut G S = c -> gcut G S' = c -> S a <> S b -> S' a <> S' b -> S a = S' a -> forall u, u < m_n G -> S u = S' u) -> a < m_n G -> a <> b ->
  forall S, gcut G S = c -> S a <> S b -> forall u, u < m_n G -> u <> a -> S u = S b.
Proof.
  intros Da Un Ha Nab S ES D u Hu Nu. pose proof (gd_valid _ _ _ GD) as VG. assert (Sy : symm (m_n G) (wt (adj (m_rows G)))) by (apply valid_symm; apply VG).
  assert (X : gcut G (fun v => v =? a) = c) by (rewrite <- Da; symmetry; apply (degree_cut G a VG Ha)).
  assert (Nb : (b =? a) = false) by (apply Nat.eqb_neq; auto). apply Nat.eqb_neq in Nu. destruct (S a) eqn:Sa.
  - rewrite (Un S (fun v => v =? a)); auto; [|rewrite Sa; auto|rewrite Nat.eqb_refl, Nb; discriminate|rewrite Nat.eqb_refl; auto]. rewrite Nu. destruct (S b); congruence.
  - assert (X' : gcut G (fun v => negb (v =? a)) = c) by (rewrite <- X; unfold gcut; apply cutw_compl; auto).
    rewrite (Un S (fun v => negb (v =? a))); auto; [|rewrite Sa; auto|rewrite Nat.eqb_refl, Nb; discriminate|rewrite Nat.eqb_refl; auto]. rewrite Nu. destruct (S b); cbn; congruence.
Qed.

Lemma full_step : 2 <= m_n G -> sel pid G = Some (s, e, t) -> flow (S pid) G s t = Some (x, fl) ->
  exists M pid', inner_cactus c sel flow ord bfs rec G pid = Some (M, pid') /\ rep n c (mincuts_of n c G) M.
Proof.
  intros N2 Es Ef. destruct (ends_ok n c G GD s e t w r Sl) as (Hs & Ht & Nst & Wst). pose proof (gd_valid _ _ _ GD) as VG.
  unfold inner_cactus. destruct (Nat.eqb_spec (m_n G) 1); [lia|]. cbn [orb]. pose proof (some_edges n c Pc G GD N2) as NE. apply N.eqb_neq in NE. rewrite NE, Es, Ef.
  pose proof (flow_ge n c G GD s e t w r Sl x fl MF) as Ge. destruct (N.ltb_spec c x) as [Lt|Le].
  - destruct (edge_ok n c G GD s e t w r Sl Nst) as (H & h & EH & GH & Less & CL & ME & CO & PO). rewrite EH.
    destruct (rec_good (S pid) H GH Less) as (NN & pid' & ER & RN). exists NN, pid'. split; [exact ER|].
    apply (rep_iff n c _ _ NN (mincuts_family n c H GH)); [|exact RN]. apply (edge_cuts n c G GD s t H h); auto.
    intros S P E. destruct (Bool.bool_dec (S s) (S t)) as [|D]; [auto|]. pose proof (flow_low n c G GD s t x fl MF S D). lia.
  - assert (x = c) as Ex by lia. destruct (Nat.eqb_spec (m_n G) 2) as [E2|N3].
    + exists G, (S pid). split; [reflexivity|]. apply two_ok; auto. destruct (flow_cut n c G GD s e t w r Sl x fl MF) as (S & Ss & St & ES). rewrite <- Ex, <- ES.
      assert ((s = 0 /\ t = 1) \/ (s = 1 /\ t = 0)) as [[-> ->]|[-> ->]] by lia.
      * apply gcut_ext. intros u Hu. assert (u = 0 \/ u = 1) as [->| ->] by lia; cbn; auto.
      * unfold gcut. rewrite <- (cutw_compl (m_n G) _ S (valid_symm _ (proj1 (gd_valid _ _ _ GD)))). apply cutw_ext. intros u Hu. assert (u = 0 \/ u = 1) as [->| ->] by lia; cbn; [rewrite St|rewrite Ss]; reflexivity.
    + destruct (blocks_cases (S pid) Ex) as (o & Eo & Ca).
      assert (Blk : (nth s (m_deg G) 0%N <> c /\ nth t (m_deg G) 0%N <> c) \/ (s_cc o <> 2) ->
        exists M pid', match strong_components scc_new (res_rows (Some (S pid)) (stored (S pid) (m_rows G) fl)) with Some o0 => if (s_cc o0 =? 2) && ((nth s (m_deg G) 0 =? c)%N || (nth t (m_deg G) 0 =? c)%N) then leaf_branch c rec G s e t (S pid) else block_branch c ord bfs rec G o0 s (S pid) | None => None end = Some (M, pid') /\ rep n c (mincuts_of n c G) M).
      { intro B. destruct (block_ok n c Pc Wc G GD ord Or bfs sel flow rec rec_good s e t w r Sl x fl MF (S pid) Ex) as (o' & Eo' & NLf & M & pid' & EM & RM); [|lia|].
        - destruct B as [B|B]; [left; auto|right]. destruct Ca as [[K _]|[_ Q]]; [congruence|exact Q].
        - rewrite Eo', NLf. eauto. }
      destruct Ca as [[K Un]|[K _]]; [|apply Blk; auto].
      destruct (N.eqb_spec (nth s (m_deg G) 0%N) c) as [Ds|Ds], (N.eqb_spec (nth t (m_deg G) 0%N) c) as [Dt|Dt]; try (apply Blk; left; auto; fail); rewrite Eo, K; cbn [Nat.eqb andb orb].
      all: apply (leaf_ok n c Pc G GD rec Rec s e t w r Sl).
      * apply N.eqb_eq in Ds as Ds'. rewrite Ds'. auto.
      * apply N.eqb_eq in Ds as Ds'. rewrite Ds'. rewrite Nat.eqb_refl. apply (only_ctr s t Ds Un); auto.
      * apply N.eqb_eq in Ds as Ds'. rewrite Ds'. auto.
      * apply N.eqb_eq in Ds as Ds'. rewrite Ds'. rewrite Nat.eqb_refl. apply (only_ctr s t Ds Un); auto.
      * apply N.eqb_neq in Ds as Ds'. rewrite Ds'. auto.
      * apply N.eqb_neq in Ds as Ds'. rewrite Ds'. destruct (Nat.eqb_spec t s); [congruence|]. 
        intros S ES D. apply (only_ctr t s Dt) ; auto.
        intros S1 S2 E1 E3 D1 D2 Eq. apply Un; auto. clear - D1 D2 Eq. destruct (S1 s), (S2 s), (S1 t), (S2 t); congruence.
Qed.
End Step.
