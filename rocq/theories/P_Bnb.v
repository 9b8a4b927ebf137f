(* P_Bnb.v - branch and bound for multiterminal cuts: fuel, links to the original graph, findBestSolution. *)
From Coq Require Import Permutation.
From Verif Require Import SpecFlow P_Cut P_Mutable P_Multi P_Kernel P_KernelC P_Kernel3 P_Kernel5 P_Iso P_Branch P_Branch2 P_Branch3 P_IsoFlow P_IsoFlow2 P_IsoFlow3 P_IsoFlow4 M_Bnb.

(** ** more fuel changes nothing *)
Lemma pr_loop_mono pick gl R ts src : forall f k s r f', pr_loop f pick gl k R ts src s = Some r -> f <= f' -> pr_loop f' pick gl k R ts src s = Some r.
Proof.
  induction f as [|f IH]; intros k s r f' E L.
  - cbn in E. destruct (p_q s) eqn:Q; [|discriminate E]. destruct f'; cbn; rewrite Q; exact E.
  - destruct f' as [|f']; [lia|]. cbn in E |- *. destruct (p_q s); [exact E|]. destruct (if gl k then _ else _); [|exact E]. apply IH; [exact E|lia].
Qed.
Lemma smf_mono pick gl R ts i f f' r : solve_max_flow f pick gl R ts i = Some r -> f <= f' -> solve_max_flow f' pick gl R ts i = Some r.
Proof.
  unfold solve_max_flow. intros E L. destruct (negb _); [exact E|]. destruct (nth_error ts i); [|exact E]. destruct (global_relabel _ _ _ _ _); [|exact E].
  destruct (pr_loop f _ _ _ _ _ _ _) eqn:Q; [|discriminate E]. rewrite (pr_loop_mono _ _ _ _ _ _ _ _ _ _ Q L). exact E.
Qed.
Lemma blocks_seq_mono run run' : (forall k r, run k = Some r -> run' k = Some r) -> forall ts k b, blocks_seq run k ts = Some b -> blocks_seq run' k ts = Some b.
Proof.
  intro H. induction ts as [|t ts IH]; intros k b; cbn; [auto|]. destruct (t_inv t).
  - destruct (run k) eqn:Q; [|discriminate]. rewrite (H _ _ Q). cbn. destruct (blocks_seq run (S k) ts) eqn:Q2; [|discriminate]. rewrite (IH _ _ Q2). auto.
  - destruct (blocks_seq run (S k) ts) eqn:Q2; [|discriminate]. rewrite (IH _ _ Q2). auto.
Qed.
Lemma futures_mono run run' : (forall k r, run k = Some r -> run' k = Some r) -> forall ts k b, futures run k ts = Some b -> futures run' k ts = Some b.
Proof.
  intro H. induction ts as [|t ts IH]; intros k b; cbn; [auto|]. destruct (futures run (S k) ts) eqn:Q2; [|discriminate]. rewrite (IH _ _ Q2).
  destruct (t_inv t); [|auto]. destruct (run k) as [[x y]|] eqn:Q; [|discriminate]. rewrite (H _ _ Q). auto.
Qed.
Lemma iso_blocks_mono par run run' : (forall k r, run k = Some r -> run' k = Some r) -> forall ts b, iso_blocks par run ts = Some b -> iso_blocks par run' ts = Some b.
Proof.
  intros H ts b. unfold iso_blocks. destruct par; [|apply blocks_seq_mono; auto]. destruct (futures run 0 ts) eqn:Q; [|discriminate]. rewrite (futures_mono _ _ H _ _ _ Q). auto.
Qed.
Lemma iso_mono pick gl par ord maps origs G old del f f' r : isolating_flow f pick gl par ord maps origs G old del = Some r -> f <= f' ->
  isolating_flow f' pick gl par ord maps origs G old del = Some r.
Proof.
  unfold isolating_flow. intros E L. destruct (set_terms G maps origs old) as [ts|]; [|exact E].
  destruct (iso_blocks par (fun k => solve_max_flow f _ _ _ _ _) ts) as [b|] eqn:Q; [|discriminate E].
  rewrite (iso_blocks_mono par _ (fun k => solve_max_flow f' (pick k) (gl k) (m_rows G) (map t_at ts) k) ltac:(intros k r0 X; exact (smf_mono _ _ _ _ _ _ _ _ X L)) _ _ Q). exact E.
Qed.
Lemma st_mono pick gl maps origs G ts del f f' r : st_flow f pick gl maps origs G ts del = Some r -> f <= f' -> st_flow f' pick gl maps origs G ts del = Some r.
Proof.
  unfold st_flow. intros E L. destruct (solve_max_flow f pick gl (m_rows G) (map t_at ts) 0) as [x|] eqn:Q; [|discriminate E]. rewrite (smf_mono _ _ _ _ _ _ _ _ Q L). exact E.
Qed.

(** ** the terminals of a problem, all with invalid flows *)
Lemma all_inv_terms G maps origs ts : set_terminals G maps origs 0 = Some ts -> set_terms G maps origs [] = Some (all_inv ts).
Proof. unfold set_terms. intros ->. reflexivity. Qed.
Lemma all_inv_flags G T ts : flags_ok G T (all_inv ts).
Proof. intros p i H. apply in_map_iff in H. destruct H as (x & E & _). discriminate E. Qed.

(** ** finish_terms keeps positions and partition indices *)
Theorem finish_terms_full G maps origs T w0 : kstate G maps origs T ->
  exists G' ts' w, finish_terms maps origs G w0 = Some (G', ts', (w0 + w)%N) /\ kstate G' maps origs T /\ set_terminals G' maps origs 0 = Some ts' /\ map fst ts' = live G' T /\ m_n G' = m_n G /\
    noterm (m_rows G') T /\ (forall f, separates (m_n G) T f -> (mtcost (m_n G) (wt (adj (m_rows G'))) f + w = mtcost (m_n G) (wt (adj (m_rows G))) f)%N) /\
    m_pos G' = m_pos G /\ m_part G' = m_part G.
Proof.
  intro KS. destruct (finish_terms_ok G maps origs T w0 KS) as (G' & ts' & w & E & K & L & N & Z & C). exists G', ts', w.
  split; [exact E|]. split; [exact K|]. unfold finish_terms in E. pose proof KS as [A1 A2 A3 A4 A5 A6 A7 A8].
  destruct (set_terminals_ok G maps origs T 0 A6 A7) as (L1 & E1 & EL1). rewrite E1, EL1 in E.
  destruct (del_term_edges_ok G (live G T) A1) as (G2 & w2 & E2 & D & _); [intros t Ht; apply filter_In in Ht; apply A7; tauto|]. rewrite E2 in E.
  destruct (set_terminals G2 maps origs 0) as [ts2|] eqn:E3; [|discriminate E]. injection E as <- <- _.
  split; [exact E3|]. split; [exact L|]. split; [exact N|]. split; [exact Z|]. split; [exact C|]. split; [apply (d_pos _ _ _ _ _ D)|apply (d_part _ _ _ _ _ D)].
Qed.

(** ** assignments of a smaller graph are assignments of the larger one and cost no more than with the weight w *)
Definition lifts (G : mg) (T : list nat) (G' : mg) (T' : list nat) (w : N) : Prop :=
  exists g, length (m_pos G') = length (m_pos G) /\ (forall x, x < length (m_pos G) -> nth x (m_pos G') 0 = g (nth x (m_pos G) 0)) /\ (forall p, p < m_n G -> g p < m_n G') /\
    forall f, separates (m_n G') T' f -> separates (m_n G) T (fun u => f (g u)) /\
      (mtcost (m_n G) (wt (adj (m_rows G))) (fun u => f (g u)) <= mtcost (m_n G') (wt (adj (m_rows G'))) f + w)%N.

Lemma lifts_trans G1 T1 G2 T2 G3 T3 w w' : lifts G1 T1 G2 T2 w -> lifts G2 T2 G3 T3 w' -> lifts G1 T1 G3 T3 (w + w').
Proof.
  intros (g & L & P & R & C) (g' & L' & P' & R' & C'). exists (fun u => g' (g u)). split; [congruence|]. split; [|split].
  - intros x Hx. rewrite P' by lia. rewrite P by auto. reflexivity.
  - intros p Hp. apply R', R, Hp.
  - intros f F. destruct (C' f F) as [F1 Q1]. destruct (C _ F1) as [F2 Q2]. split; [exact F2|]. lia.
Qed.
Lemma lifts_same G T G' w : m_pos G' = m_pos G -> m_n G' = m_n G ->
  (forall f, separates (m_n G) T f -> (mtcost (m_n G) (wt (adj (m_rows G))) f <= mtcost (m_n G) (wt (adj (m_rows G'))) f + w)%N) -> lifts G T G' T w.
Proof.
  intros P N C. exists (fun u => u). rewrite P, N. split; [auto|]. split; [auto|]. split; [auto|]. intros f F. split; [exact F|]. apply C. exact F.
Qed.
Lemma separates_map n n' g T f : (forall p, p < n -> g p < n') -> separates n' (map g T) f -> separates n T (fun u => f (g u)).
Proof.
  intros R [A B]. rewrite map_length in *. split; [intros v Hv; apply A, R, Hv|]. intros i Hi. rewrite <- (B i Hi) at 2. rewrite (nth_indep (map g T) 0 (g 0)) by (rewrite map_length; auto). rewrite map_nth. reflexivity.
Qed.

(** the children of multiBranch *)
Theorem child_lifts G maps origs T vtx ctr C T' : kstate G maps origs T -> simple (m_rows G) -> vtx < m_n G -> ~ In vtx T ->
  (match ctr with Some c => In c (live G T) | None => True end) ->
  branch_child maps origs G (live G T) vtx ctr = Some C -> kstate (fst (fst C)) maps origs T' ->
  lifts G T (fst (fst C)) T' (snd C) /\ set_terminals (fst (fst C)) maps origs 0 = Some (snd (fst C)).
Proof.
  intros KS SI HV NV HC E K. rewrite child_start with (T := T) in E by auto.
  destruct (del_edges_at_ok vtx (m_n G) (PP G T ctr) (length (nth vtx (m_rows G) [])) G 0%N 0 (ks_valid _ _ _ _ KS) eq_refl HV) as (G1 & w1 & E1 & D & Z).
  { unfold rl. lia. } { intros b t Hb. lia. }
  rewrite E1 in E. rewrite N.add_0_l in E. pose proof (vdel_kstate _ _ _ _ _ _ _ _ D KS) as KS1. pose proof (v_simple _ _ _ _ _ _ D SI) as SI1. pose proof (v_n _ _ _ _ _ _ D) as N1.
  assert (L1 : lifts G T G1 T w1) by (apply lifts_same; [apply (v_pos _ _ _ _ _ _ D)|exact N1|intros f _; apply (v_le _ _ _ _ _ _ D)]).
  assert (FIN : forall G2 T2, kstate G2 maps origs T2 -> lifts G1 T G2 T2 0 -> finish_terms maps origs G2 w1 = Some C -> lifts G T (fst (fst C)) T' (snd C) /\ set_terminals (fst (fst C)) maps origs 0 = Some (snd (fst C))).
  { intros G2 T2 KS2 L2 EF. destruct (finish_terms_full G2 maps origs T2 w1 KS2) as (G3 & ts3 & w3 & E3 & KS3 & ST & _ & N3 & _ & C3 & P3 & _). rewrite E3 in EF. injection EF as <-. cbn [fst snd] in *.
    split; [|exact ST]. rewrite (at_positions_fun maps origs G3 T' T2); [|apply (ks_pos _ _ _ _ K)|apply (ks_pos _ _ _ _ KS3)].
    replace (w1 + w3)%N with (w1 + (0 + w3))%N by lia. eapply lifts_trans; [exact L1|]. eapply lifts_trans; [exact L2|]. apply lifts_same; auto. intros f F. rewrite (C3 f F). lia. }
  assert (SAME : lifts G1 T G1 T 0) by (apply lifts_same; auto; intros; lia).
  destruct ctr as [c|]; [|eapply FIN; eauto].
  destruct (edge_to (nth vtx (m_rows G1) []) c 0) as [e|] eqn:ET; [|eapply FIN; eauto].
  pose proof (edge_to_ok c (nth vtx (m_rows G1) []) 0) as X. rewrite ET in X. destruct X as (_ & w & r & S). rewrite Nat.sub_0_r in S.
  destruct (contract_state_pos G1 vtx e c w r maps origs T KS1 SI1 S ltac:(tauto)) as (G2 & g & E2 & KS2 & UP & _ & LP & PS & RG). rewrite E2 in E.
  apply (FIN G2 (map g T) KS2); [|exact E]. exists g. split; [exact LP|]. split; [exact PS|]. split; [exact RG|]. intros f F. destruct (UP f F) as (F1 & _ & Q). split; [exact F1|]. rewrite Q. lia.
Qed.
