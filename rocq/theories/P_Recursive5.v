(* P_Recursive5.v - proofs about internalRecursiveCactus, part 5: the component graph of a large component, and the graph after one
   edge has been contracted. *)
From Verif Require Import SpecCut SpecDyn SpecMutable M_Mutable P_Mutable P_Mutable7 P_Cut P_LocalSearch P_LocalSearch2 P_AllMincuts P_MutableIO Prop_StCactus P_Recursive M_StCactus M_Merge M_Branch M_Recursive P_StCactus9 P_ContractStd P_ContractStd2 P_ContractSet2 P_Merge3 P_Merge6 P_Recursive2 P_Recursive3 P_Recursive4.

(** fewer classes than vertices when two vertices fall together *)
Lemma clu_less n h k u w : clustering n h k -> u < n -> w < n -> u <> w -> h u = h w -> k < n.
Proof.
  intros [Rg On] Hu Hw Ne E. assert (ND : NoDup (seq 0 k)) by apply seq_NoDup.
  set (l := filter (fun x => negb (x =? u)) (seq 0 n)).
  assert (I : incl (seq 0 k) (map h l)).
  { intros p Ip. apply in_seq in Ip. destruct (On p ltac:(lia)) as (x & Hx & Ex). apply in_map_iff. destruct (Nat.eq_dec x u) as [->|Nx].
    - exists w. split; [congruence|]. apply filter_In. split; [apply in_seq; lia|]. apply negb_true_iff, Nat.eqb_neq. auto.
    - exists x. split; [auto|]. apply filter_In. split; [apply in_seq; lia|]. apply negb_true_iff, Nat.eqb_neq. auto. }
  pose proof (NoDup_incl_length ND I) as L. rewrite map_length, seq_length in L.
  assert (L2 : length (u :: l) <= length (seq 0 n)).
  { apply NoDup_incl_length.
    - constructor; [intro Q; apply filter_In in Q as [_ Q]; rewrite Nat.eqb_refl in Q; discriminate Q|apply NoDup_filter, seq_NoDup].
    - intros x [<-|Q]; [apply in_seq; lia|]. apply filter_In in Q. apply Q. }
  rewrite seq_length in L2. cbn [length] in L2. lia.
Qed.

Section Contracted.
Context (n : nat) (c : N) (G : mg) (GD : good n c G).
(** a contraction of a good graph is good *)
Lemma contracted_good H h : mvalid H -> m_last H = m_n H -> m_orig H = m_orig G -> length (m_part H) = m_n H -> length (m_cut H) = m_n H -> length (m_cont H) = m_n H ->
  no_parallel (m_rows H) -> no_zero (m_rows H) -> clustering (m_n G) h (m_n H) -> contraction_of (m_n G) (wt (adj (m_rows G))) h (m_n H) (wt (adj (m_rows H))) ->
  groups_exact (m_n H) (m_cont H) (m_pos H) -> length (m_pos H) = length (m_pos G) -> (forall x, x < length (m_pos G) -> nth x (m_pos H) 0 = h (nth x (m_pos G) 0)) ->
  good n c H.
Proof.
  intros VH LH OH L1 L2 L3 NP NZ CL CO GE LP PO. rewrite (gd_lp _ _ _ GD) in *. constructor; auto.
  - rewrite OH. apply GD.
  - intros x Hx. rewrite PO by auto. apply CL. apply GD. auto.
  - intros p Hp Q. destruct CL as [_ On]. destruct (On p Hp) as (u & Hu & Eu). destruct (member n c G GD u Hu) as (x & Hx & Ex).
    assert (I : In x (nth p (m_cont H) [])). { apply GE; auto. split; [rewrite LP; auto|]. rewrite PO by auto. congruence. }
    rewrite Q in I. exact I.
  - intros S PS. rewrite (contraction_cut (m_n G) _ h (m_n H) _ S (proj1 CL) CO). apply GD. eapply proper_pull; eauto.
  - pose proof (gd_some _ _ _ GD). pose proof (proj1 CL 0 ltac:(lia)). lia.
Qed.

(** the graph of a large component *)
Context (ord : list nat -> list nat) (Or : forall l, Permutation (ord l) l).
Lemma big_ok v cc : length v = m_n G -> (exists u w, u < m_n G /\ w < m_n G /\ u <> w /\ nth u v 0 <> cc /\ nth w v 0 <> cc) ->
  exists H h, cp_big ord G v cc = Some H /\ part n c G (fun u => nth u v 0) cc H h.
Proof.
  intros Lv (u & w & Hu & Hw & Nuw & Nu & Nw). unfold cp_big. set (vs := ord _).
  assert (Iv : forall x, In x vs <-> (x < m_n G /\ nth x v 0 <> cc)).
  { intro x. unfold vs. split.
    - intro I. apply (Permutation_in _ (Or _)) in I. apply filter_In in I as [I Q]. apply in_seq in I. rewrite Lv in I. apply negb_true_iff, Nat.eqb_neq in Q. split; [lia|auto].
    - intros [A B]. apply (Permutation_in _ (Permutation_sym (Or _))). apply filter_In. split; [apply in_seq; lia|]. apply negb_true_iff, Nat.eqb_neq. auto. }
  assert (ND : NoDup vs). { apply (Permutation_NoDup (Permutation_sym (Or _))). apply NoDup_filter, seq_NoDup. }
  destruct (gd_lens _ _ _ GD) as (Lp & Lc & Lo).
  destruct (contract_set_ok G vs (gd_valid _ _ _ GD) ND Lp Lc) as (H & h & EH & VH & L1 & L2 & CL & ME & CO & GR).
  destruct (contract_set_keeps G vs H (gd_valid _ _ _ GD) ND Lp Lc (gd_nopar _ _ _ GD) (gd_nozero _ _ _ GD) EH) as (NP & NZ & LA & OR & LO).
  destruct (GR (gd_groups _ _ _ GD)) as (GE & LP & PO). exists H, h. split; [exact EH|].
  assert (Hh : h u = h w). { apply ME; auto. right. split; apply Iv; auto. }
  constructor; auto.
  - apply (contracted_good H h); auto. apply LA. apply GD.
  - apply (clu_less (m_n G) h (m_n H) u w); auto.
  - intros a b Ha Hb. rewrite (ME a b Ha Hb). rewrite !Iv. tauto.
  - intros x Hx. apply PO. rewrite (gd_lp _ _ _ GD). auto.
Qed.

(** the graph after an edge has been contracted *)
Lemma edge_ok s e t w r : slot (m_rows G) s e = Some (t, w, r) -> s <> t ->
  exists H h, contract_edge_std G s e = Some H /\ good n c H /\ m_n H < m_n G /\ clustering (m_n G) h (m_n H) /\ merges (m_n G) (fun x => x = s \/ x = t) h /\
    contraction_of (m_n G) (wt (adj (m_rows G))) h (m_n H) (wt (adj (m_rows H))) /\ forall x, x < n -> nth x (m_pos H) 0 = h (nth x (m_pos G) 0).
Proof.
  intros SL Nst. destruct (gd_lens _ _ _ GD) as (Lp & Lc & Lo).
  destruct (contract_edge_std_ok G s e t w r (gd_valid _ _ _ GD) Lp Lc SL) as (H & h & EH & VH & NH & L1 & L2 & CL & ME & CO & GR).
  { rewrite adj_nth, map_map. apply (gd_nopar _ _ _ GD). }
  destruct (contract_edge_std_keeps G s e t w r H (gd_valid _ _ _ GD) Lp Lc SL (gd_nopar _ _ _ GD) (gd_nozero _ _ _ GD) EH) as (NP & NZ & LA & OR & LO).
  destruct (GR (gd_groups _ _ _ GD)) as (GE & LP & PO). exists H, h. split; [exact EH|].
  pose proof (gd_some _ _ _ GD) as Sm. split; [|split; [lia|split; [auto|split; [auto|split; [auto|]]]]].
  - apply (contracted_good H h); auto.
    + rewrite LA, NH, (gd_last _ _ _ GD). reflexivity.
    + rewrite LO, NH, Lo. reflexivity.
  - intros x Hx. apply PO. rewrite (gd_lp _ _ _ GD). auto.
Qed.
(** no minimum cut is lost when no minimum cut separates the ends of the edge *)
Lemma edge_cuts s t H h : (forall S, proper (m_n G) S -> gcut G S = c -> S s = S t) -> s < m_n G -> t < m_n G ->
  good n c H -> clustering (m_n G) h (m_n H) -> merges (m_n G) (fun x => x = s \/ x = t) h ->
  contraction_of (m_n G) (wt (adj (m_rows G))) h (m_n H) (wt (adj (m_rows H))) -> (forall x, x < n -> nth x (m_pos H) 0 = h (nth x (m_pos G) 0)) ->
  forall Y, mincuts_of n c H Y <-> mincuts_of n c G Y.
Proof.
  intros Sep Hs Ht GH CL ME CO PO Y. assert (Cut : forall S, gcut H S = gcut G (fun u => S (h u))) by (intro S; apply contraction_cut; [apply CL|auto]). split.
  - intros (S & P & E & A). exists (fun u => S (h u)). split; [eapply proper_pull; eauto|]. split; [rewrite <- Cut; auto|]. intros x Hx. rewrite A, PO by auto. reflexivity.
  - intros (S & P & E & A).
    assert (Same : forall u w, u < m_n G -> w < m_n G -> h u = h w -> S u = S w).
    { intros u w Hu Hw Q. apply ME in Q; auto. pose proof (Sep S P E). destruct Q as [->|[[->| ->] [->| ->]]]; congruence. }
    destruct (descend (m_n G) h (m_n H) S CL Same) as (T & ET).
    exists T. assert (Ex : gcut H T = c). { rewrite Cut, <- E. apply gcut_ext. intros u Hu. apply ET. auto. }
    split; [|split; [exact Ex|]].
    + destruct P as [(a & Ha & Sa) (b & Hb & Sb)]. split; [exists (h a)|exists (h b)]; (split; [apply CL; auto|]); rewrite ET; auto.
    + intros x Hx. rewrite PO, ET by (auto; apply GD; auto). auto.
Qed.
End Contracted.
