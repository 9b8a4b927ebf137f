(* P_MutableIO.v - proofs about conversion and serialisation of the mutable graph. *)
From Verif Require Import SpecCut P_Cut SpecBuild M_Graph P_Graph M_Contract P_Contract P_Mutable M_Mutable M_MutableIO.
From Coq Require Import Permutation.

(** ** every half edge is the reverse of exactly one half edge *)
Definition tot (R : list (list half)) (g : nat -> nat -> N -> N) : N := bsum (length R) (fun u => ls nodead R (g u) u).
Definition places (R : list (list half)) : list (nat * nat) := flat_map (fun u => map (fun e => (u, e)) (seq 0 (rl R u))) (seq 0 (length R)).
Definition rev_place (R : list (list half)) (p : nat * nat) : nat * nat :=
  match slot R (fst p) (snd p) with Some (t, _, r) => (t, r) | None => p end.

Lemma In_places R u e : In (u, e) (places R) <-> e < rl R u.
Proof.
  unfold places. rewrite in_flat_map. split.
  - intros [x [Hx H]]. apply in_map_iff in H. destruct H as [y [E Hy]]. injection E as <- <-. apply in_seq in Hy. lia.
  - intro He. exists u. split; [apply in_seq; pose proof (rl_lt R u e He); lia|]. apply in_map. apply in_seq. lia.
Qed.

Lemma NoDup_app_intro {A} (l1 l2 : list A) : NoDup l1 -> NoDup l2 -> (forall x, In x l1 -> In x l2 -> False) -> NoDup (l1 ++ l2).
Proof.
  induction l1 as [|a l1 IH]; intros N1 N2 H; [auto|]. inversion N1 as [|? ? Na N1']. subst. cbn. constructor.
  - rewrite in_app_iff. intros [X|X]; [auto|]. apply (H a); [left; auto|auto].
  - apply IH; auto. intros x Hx. apply H. right. auto.
Qed.

Lemma NoDup_places R : NoDup (places R).
Proof.
  unfold places. generalize (seq_NoDup (length R) 0). generalize (seq 0 (length R)) as us.
  induction us as [|u us IH]; intro ND; [constructor|]. inversion ND as [|? ? Nu ND']. subst. cbn [flat_map]. apply NoDup_app_intro; auto.
  - apply FinFun.Injective_map_NoDup; [intros a b E; injection E; auto|apply seq_NoDup].
  - intros [x y] H1 H2. apply in_map_iff in H1. destruct H1 as [e [E _]]. injection E as <- <-. apply in_flat_map in H2. destruct H2 as [x [Hx H2]].
    apply in_map_iff in H2. destruct H2 as [e' [E' _]]. injection E' as -> ->. contradiction.
Qed.

Lemma places_perm R : valid_rows R -> Permutation (places R) (map (rev_place R) (places R)).
Proof.
  intro V.
  assert (INV : forall p, In p (places R) -> In (rev_place R p) (places R) /\ rev_place R (rev_place R p) = p).
  { intros [u e] H. apply In_places in H. destruct (slot_some R u e H) as (t & w & r & S). unfold rev_place at 1 3. cbn. rewrite S.
    destruct (V u e t w r S) as [Ht [Nt S2]]. split; [apply In_places; apply (slot_lt R t r _ S2)|].
    unfold rev_place. cbn. unfold slot. unfold half in *. rewrite S2. reflexivity. }
  apply NoDup_Permutation; [apply NoDup_places| |].
  - assert (G : forall l, (forall p, In p l -> In p (places R)) -> NoDup l -> NoDup (map (rev_place R) l)).
    { induction l as [|p l IH]; intros Hl ND; [constructor|]. inversion ND as [|? ? Np ND']. subst. cbn. constructor.
      - intro H. apply in_map_iff in H. destruct H as [q [E Hq]]. apply Np.
        rewrite <- (proj2 (INV p (Hl p (or_introl eq_refl)))), <- E, (proj2 (INV q (Hl q (or_intror Hq)))). auto.
      - apply IH; auto. intros q Hq. apply Hl. right. auto. }
    apply G; [auto|apply NoDup_places].
  - intro p. split.
    + intro H. destruct (INV p H) as [A B]. apply in_map_iff. exists (rev_place R p). auto.
    + intro H. apply in_map_iff in H. destruct H as [q [<- Hq]]. apply INV. auto.
Qed.

Definition at_place (R : list (list half)) (g : nat -> nat -> N -> N) (p : nat * nat) : N :=
  match slot R (fst p) (snd p) with Some (t, w, _) => g (fst p) t w | None => 0%N end.

Lemma tot_places R g : tot R g = sumN (at_place R g) (places R).
Proof.
  unfold tot, places. rewrite sumN_flat_map. unfold bsum. apply sumN_ext. intros u _. rewrite sumN_map. unfold ls, bsum. apply sumN_ext. intros e _.
  unfold val, nodead, at_place. cbn. reflexivity.
Qed.

Lemma tot_swap R g : valid_rows R -> tot R g = tot R (fun u t w => g t u w).
Proof.
  intro V. rewrite !tot_places. rewrite (sumN_perm _ _ _ (places_perm R V)), sumN_map. apply sumN_ext. intros [u e] H. apply In_places in H.
  destruct (slot_some R u e H) as (t & w & r & S). destruct (V u e t w r S) as [_ [_ S2]]. unfold at_place, rev_place. cbn. rewrite S. cbn.
  unfold slot. unfold half in *. rewrite S2. reflexivity.
Qed.

Lemma ls_zero R f u : (forall t w, f t w = 0%N) -> ls nodead R f u = 0%N.
Proof. intro H. unfold ls. apply bsum_zero. intros e _. unfold val. destruct (slot R u e) as [[[t w] r]|]; auto. destruct (nodead u e); auto. Qed.

Lemma tot_at R g a : a < length R -> tot R (fun u t w => if Nat.eqb u a then g t w else 0%N) = ls nodead R g a.
Proof.
  intro Ha. unfold tot. rewrite (bsum_ext (length R) _ (fun u => if Nat.eqb u a then ls nodead R g a else 0%N)).
  - apply (bsum_single (length R) (fun _ => ls nodead R g a) a Ha).
  - intros u Hu. destruct (Nat.eqb_spec u a) as [->|N]; [reflexivity|]. apply ls_zero. reflexivity.
Qed.

Lemma valid_symm R : valid_rows R -> symm (length R) (wt (adj R)).
Proof.
  intros V a b Ha Hb. rewrite !wt_ls. rewrite <- (tot_at R (fw b) a Ha), <- (tot_at R (fw a) b Hb), tot_swap by auto.
  unfold tot. apply bsum_ext. intros u Hu. unfold ls. apply bsum_ext. intros e _. unfold val. destruct (slot R u e) as [[[t w] r]|]; [|reflexivity].
  destruct (nodead u e); [reflexivity|]. unfold fw. destruct (t =? a), (u =? b); reflexivity.
Qed.

Lemma valid_undirected R : valid_rows R -> undirected (adj R).
Proof.
  intro V. split; [|rewrite adj_length; apply valid_symm; auto].
  intros u v w H. rewrite adj_nth in H. apply in_map_iff in H. destruct H as [[[t w'] r] [E H]]. cbn in E. injection E as <- <-.
  apply In_nth_error in H. destruct H as [e He]. rewrite adj_length. destruct (V u e t w' r He) as [A [B _]]. auto.
Qed.

(** ** new_edge on sums *)
Lemma new_edge_sums G s t w : mvalid G -> s < t -> t < m_n G ->
  exists G', m_new_edge G s t w = Some G' /\ mvalid G' /\ m_n G' = m_n G /\
    (forall f u, ls nodead (m_rows G') f u = (ls nodead (m_rows G) f u + pairf s t w f u)%N) /\
    m_part G' = m_part G /\ m_cut G' = m_cut G /\ m_pos G' = m_pos G /\ m_cont G' = m_cont G /\ m_pc G' = m_pc G /\ m_orig G' = m_orig G.
Proof.
  intros MV Hst Ht. destruct (new_edge_ok G s t w MV Hst Ht) as (G' & E & MV' & N' & _). exists G'. split; [auto|]. split; [auto|]. split; [auto|].
  unfold m_new_edge in E. destruct (Nat.ltb_spec s t); [|lia]. destruct (Nat.ltb_spec t (m_n G)); [|lia]. injection E as <-. cbn.
  destruct MV as [V _]. destruct (new_edge_rows (m_rows G) s t w V ltac:(unfold m_n in *; lia) Ht ltac:(lia)) as [_ [_ C]].
  split; [|repeat split]. intros f u. specialize (C f u). unfold rl in C. lia.
Qed.

(** ** from_graph_access *)
Definition row_to (es : list (nat * N)) (b : nat) : N := sumN snd (filter (fun e => fst e =? b) es).

Lemma from_ga_edges_ok n N0 : n < N0 -> forall es last M, length last = N0 -> mvalid M -> m_n M = N0 ->
  NoDup (map fst es) -> (forall t w, In (t, w) es -> t < N0 /\ nth t last None <> Some n) ->
  exists last' M', from_ga_edges n es last M = Some (last', M') /\ length last' = N0 /\ mvalid M' /\ m_n M' = N0 /\
    (forall t m, nth t last' None = Some m -> m = n \/ nth t last None = Some m) /\
    (forall a b, wt (adj (m_rows M')) a b = (wt (adj (m_rows M)) a b + (if Nat.eqb a n then if Nat.ltb n b then row_to es b else 0 else 0)
                                                    + (if Nat.eqb b n then if Nat.ltb n a then row_to es a else 0 else 0))%N) /\
    m_part M' = m_part M /\ m_cut M' = m_cut M /\ m_pos M' = m_pos M /\ m_cont M' = m_cont M /\ m_orig M' = m_orig M.
Proof.
  intro Hn. induction es as [|[t w] es IH]; intros last M LL MV NM ND Hes.
  - exists last, M. cbn [from_ga_edges]. split; [auto|]. split; [auto|]. split; [auto|]. split; [auto|]. split; [auto|]. split; [|auto 6].
    intros a b. unfold row_to. cbn [filter fst]. destruct (a =? n), (b =? n), (n <? a), (n <? b); cbn [sumN]; lia.
  - cbn in ND. inversion ND as [|? ? Nt ND']. subst. destruct (Hes t w (or_introl eq_refl)) as [Ht Hl].
    cbn [from_ga_edges]. destruct (Nat.ltb_spec t (length last)); [|lia].
    assert (NEW : exists M1, m_new_edge M n t w = Some M1 /\ mvalid M1 /\ m_n M1 = length last /\
      (forall a b, wt (adj (m_rows M1)) a b = (wt (adj (m_rows M)) a b + (if Nat.eqb a n then if Nat.ltb n b then row_to [(t, w)] b else 0 else 0)
                                                    + (if Nat.eqb b n then if Nat.ltb n a then row_to [(t, w)] a else 0 else 0))%N) /\
      m_part M1 = m_part M /\ m_cut M1 = m_cut M /\ m_pos M1 = m_pos M /\ m_cont M1 = m_cont M /\ m_orig M1 = m_orig M).
    { destruct (Nat.ltb_spec n t) as [L|L].
      - destruct (new_edge_sums M n t w MV L ltac:(lia)) as (M1 & E & MV1 & N1 & C & P1 & P2 & P3 & P4 & _ & P5). exists M1.
        split; [auto|]. split; [auto|]. split; [congruence|]. split; [|auto].
        intros a b. rewrite !wt_ls, C. unfold pairf, fw, row_to. cbn [filter fst].
        destruct (Nat.eqb_spec a n), (Nat.eqb_spec b n), (Nat.ltb_spec n a), (Nat.ltb_spec n b), (Nat.eqb_spec t b), (Nat.eqb_spec t a), (Nat.eqb_spec a t), (Nat.eqb_spec n b); cbn; lia.
      - exists M. unfold m_new_edge. destruct (Nat.ltb_spec n t); [lia|]. split; [auto|]. split; [auto|]. split; [auto|]. split; [|auto].
        intros a b. unfold row_to. cbn [filter fst]. destruct (Nat.eqb_spec a n), (Nat.eqb_spec b n), (Nat.ltb_spec n a), (Nat.ltb_spec n b), (Nat.eqb_spec t b), (Nat.eqb_spec t a); cbn; lia. }
    destruct NEW as (M1 & E1 & MV1 & N1 & W1 & P1 & P2 & P3 & P4 & P5).
    destruct (IH (upd last t (Some n)) M1) as (last' & M' & E & L' & MV' & N' & LA & W & Q1 & Q2 & Q3 & Q4 & Q5); auto.
    { apply upd_length. }
    { intros t' w' H'. destruct (Hes t' w' (or_intror H')) as [A B]. split; [auto|]. rewrite nth_upd_neq; [auto|].
      intros ->. apply Nt. apply (in_map fst) in H'. exact H'. }
    exists last', M'. split.
    { destruct (nth t last None) as [l|] eqn:EL.
      - destruct (Nat.eqb_spec l n) as [->|]; [congruence|]. rewrite E1. auto.
      - rewrite E1. auto. }
    split; [auto|]. split; [auto|]. split; [auto|]. split.
    { intros t' m H'. destruct (LA t' m H') as [A|A]; [auto|]. destruct (Nat.eq_dec t' t) as [->|Nt'].
      - rewrite nth_upd_eq in A by auto. left. congruence.
      - rewrite nth_upd_neq in A by auto. auto. }
    split; [|repeat split; congruence].
    intros a b. rewrite W, W1. unfold row_to. cbn [filter fst]. destruct (Nat.eqb_spec a n), (Nat.eqb_spec b n), (n <? a), (n <? b), (t =? b), (t =? a); cbn [sumN snd]; lia.
Qed.

Lemma new_node_skip M : m_last M < m_n M -> m_rows (new_node M) = m_rows M /\ m_deg (new_node M) = m_deg M /\ m_ne (new_node M) = m_ne M /\
  m_part (new_node M) = m_part M /\ m_cut (new_node M) = m_cut M /\ m_pos (new_node M) = m_pos M /\ m_cont (new_node M) = m_cont M /\
  m_orig (new_node M) = m_orig M /\ m_last (new_node M) = S (m_last M).
Proof. intro H. unfold new_node. destruct (Nat.eqb_spec (m_last M) (m_n M)); [lia|]. cbn. repeat split. Qed.

Lemma from_ga_edges_last n : forall es last M last' M', from_ga_edges n es last M = Some (last', M') -> m_last M' = m_last M.
Proof.
  assert (NE : forall M s t w M', m_new_edge M s t w = Some M' -> m_last M' = m_last M).
  { intros M s t w M' H. unfold m_new_edge in H. destruct (s <? t); [|injection H as <-; auto]. destruct (t <? m_n M); [|discriminate]. injection H as <-. reflexivity. }
  assert (SW : forall M v e w M', m_set_weight M v e w = Some M' -> m_last M' = m_last M).
  { intros M v e w M' H. unfold m_set_weight in H. destruct (slot (m_rows M) v e) as [[[t w0] r]|]; [|discriminate].
    destruct (set_wgt (m_rows M) v e w) as [r1|]; [|discriminate]. destruct (set_wgt r1 t r w); [|discriminate]. injection H as <-. reflexivity. }
  induction es as [|[t w] es IH]; intros last M last' M' H; cbn [from_ga_edges] in H.
  - injection H as <- <-. auto.
  - destruct (t <? length last); [|discriminate]. destruct (nth t last None) as [l|].
    + destruct (l =? n).
      * destruct (find_target _ _ _) as [[e2 w0]|]; [|eauto]. destruct (m_set_weight _ _ _ _) eqn:E; [|discriminate]. apply SW in E. apply IH in H. congruence.
      * destruct (m_new_edge _ _ _ _) eqn:E; [|discriminate]. apply NE in E. apply IH in H. congruence.
    + destruct (m_new_edge _ _ _ _) eqn:E; [|discriminate]. apply NE in E. apply IH in H. congruence.
Qed.

Lemma from_ga_nodes_ok N0 : forall g n last M, length last = N0 -> mvalid M -> m_n M = N0 -> n + length g = N0 -> m_last M = n ->
  (forall es, In es g -> NoDup (map fst es) /\ forall t w, In (t, w) es -> t < N0) ->
  (forall t m, nth t last None = Some m -> m < n) ->
  exists M', from_ga_nodes g n last M = Some M' /\ mvalid M' /\ m_n M' = N0 /\
    (forall a b, wt (adj (m_rows M')) a b = (wt (adj (m_rows M)) a b + (if Nat.ltb a b then if Nat.leb n a then row_to (nth (a - n) g []) b else 0 else 0)
                                               + (if Nat.ltb b a then if Nat.leb n b then row_to (nth (b - n) g []) a else 0 else 0))%N) /\
    m_part M' = m_part M /\ m_cut M' = m_cut M /\ m_pos M' = m_pos M /\ m_cont M' = m_cont M /\ m_orig M' = m_orig M.
Proof.
  induction g as [|es g IH]; intros n last M LL MV NM HN HL Hg Hlast.
  - exists M. split; [reflexivity|]. split; [auto|]. split; [auto|]. split; [|auto 6]. intros a b.
    assert (Z : forall k x, row_to (nth k [] []) x = 0%N) by (intros [|k] x; reflexivity). rewrite !Z.
    destruct (a <? b), (b <? a), (n <=? a), (n <=? b); lia.
  - cbn [length] in HN. destruct (new_node_skip M ltac:(lia)) as (R1 & R2 & R3 & R4 & R5 & R6 & R7 & R8 & R9).
    destruct (Hg es (or_introl eq_refl)) as [ND HT].
    assert (MV0 : mvalid (new_node M)) by (unfold mvalid in *; rewrite R1, R2, R3; auto).
    assert (NM0 : m_n (new_node M) = N0) by (unfold m_n in *; rewrite R1; auto).
    destruct (from_ga_edges_ok n N0 ltac:(lia) es last (new_node M)) as (last' & M1 & E & L' & MV1 & N1 & LA & W & Q1 & Q2 & Q3 & Q4 & Q5); auto.
    { intros t w H. split; [eauto|]. intro X. apply Hlast in X. lia. }
    cbn [from_ga_nodes]. rewrite E.
    destruct (IH (S n) last' M1) as (M' & E' & MV' & N' & W' & P1 & P2 & P3 & P4 & P5); auto.
    { lia. } { apply from_ga_edges_last in E. congruence. } { intros es' H. apply Hg. right. auto. }
    { intros t m H. destruct (LA t m H) as [->|X]; [lia|]. apply Hlast in X. lia. }
    exists M'. split; [auto|]. split; [auto|]. split; [auto|]. split; [|repeat split; congruence].
    intros a b. rewrite W', W, R1.
    assert (SH : forall c d, (if n <=? c then row_to (nth (c - n) (es :: g) []) d else 0%N)
      = ((if Nat.leb (S n) c then row_to (nth (c - S n) g []) d else 0) + (if Nat.eqb c n then row_to es d else 0))%N).
    { intros c d. destruct (Nat.leb_spec n c), (Nat.leb_spec (S n) c), (Nat.eqb_spec c n); try lia.
      - replace (c - n) with (S (c - S n)) by lia. cbn [nth]. lia.
      - subst c. rewrite Nat.sub_diag. cbn [nth]. lia. }
    rewrite !SH.
    destruct (Nat.ltb_spec a b), (Nat.ltb_spec b a), (Nat.eqb_spec a n), (Nat.eqb_spec b n), (Nat.ltb_spec n a), (Nat.ltb_spec n b); try lia.
Qed.

Theorem from_graph_access_ok g : (forall u v w, In (v, w) (nth u g []) -> v < length g) -> symm (length g) (wt g) ->
  (forall u, u < length g -> NoDup (map fst (nth u g []))) ->
  exists M, from_graph_access g = Some M /\ mvalid M /\ m_n M = length g /\
    (forall a b, a < length g -> b < length g -> a <> b -> wt (adj (m_rows M)) a b = wt g a b) /\
    (forall a, wt (adj (m_rows M)) a a = 0%N) /\
    m_part M = repeat 0 (length g) /\ m_pos M = seq 0 (length g) /\ m_cont M = map (fun i => [i]) (seq 0 (length g)) /\ m_orig M = length g.
Proof.
  intros HT HS ND. unfold from_graph_access.
  assert (V0 : mvalid (start_construction (length g)) /\ (forall a b, wt (adj (m_rows (start_construction (length g)))) a b = 0%N)).
  { assert (R : forall v, nth v (repeat (@nil half) (length g)) [] = []) by (intro v; apply nth_repeat).
    unfold mvalid, start_construction. cbn [m_rows m_deg m_ne]. split; [split; [|split]|].
    - intros v e t w r H. rewrite R in H. destruct e; discriminate.
    - split; [rewrite !repeat_length; auto|]. intros v Hv. rewrite R. cbn. rewrite nth_repeat. reflexivity.
    - unfold count_exact. symmetry. apply sumN_zero. intros row Hr. apply repeat_spec in Hr. subst row. reflexivity.
    - intros a b. rewrite wt_ls, ls_nodead, R. reflexivity. }
  destruct V0 as [MV0 W0].
  destruct (from_ga_nodes_ok (length g) g 0 (repeat None (length g)) (start_construction (length g))) as (M & E & MV & N & W & P1 & P2 & P3 & P4 & P5); auto.
  { apply repeat_length. } { unfold m_n. cbn. apply repeat_length. }
  { intros es H. apply In_nth with (d := []) in H. destruct H as [u [Hu <-]]. split; [auto|]. intros t w. apply HT. }
  { intros t m H. rewrite nth_repeat in H. discriminate. }
  exists (m_finish M). rewrite E. cbn [option_map]. unfold m_finish. cbn [m_rows m_part m_pos m_cont m_orig]. split; [reflexivity|]. split; [exact MV|]. split; [exact N|]. split; [|split].
  - intros a b Ha Hb Nab. rewrite W, W0. rewrite !Nat.sub_0_r. cbn [Nat.leb].
    change (row_to (nth a g []) b) with (wt g a b). change (row_to (nth b g []) a) with (wt g b a).
    rewrite (HS b a) by auto. destruct (Nat.ltb_spec a b), (Nat.ltb_spec b a); lia.
  - intro a. rewrite W, W0, Nat.ltb_irrefl. reflexivity.
  - rewrite P1, P3, P4, P5. cbn. auto.
Qed.

Theorem to_graph_access_ok M : mvalid M -> exists h, to_graph_access M = Some h /\ adj_of h = adj (m_rows M).
Proof.
  intros [V _]. unfold to_graph_access. destruct (build_rows (N.to_nat (m_ne M)) (adj (m_rows M))) as [h [B A]].
  - apply (valid_undirected (m_rows M) V).
  - rewrite adj_length in B. exists h. auto.
Qed.
