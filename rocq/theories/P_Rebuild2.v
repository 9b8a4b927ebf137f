(* P_Rebuild2.v - proofs about decrementalRebuild, part 2: minimum cut 0, which has two blocks without an edge between them. *)
From Verif Require Import SpecCut SpecDyn SpecMutable M_Mutable P_Mutable P_MutableIO P_Cut P_LocalSearch2 M_StCactus P_StCactus2 P_StCactus3 P_StCactus4 P_StCactus6 P_StCactus7 P_StCactus8 P_StCactus9 P_StCactus10 Prop_StCactus.

Lemma two_rows C w : pairs_of (nth 0 (m_rows C) []) = [(1, w)] -> pairs_of (nth 1 (m_rows C) []) = [(0, w)] -> m_n C = 2 ->
  exists r r', m_rows C = [[(1, w, r)]; [(0, w, r')]].
Proof.
  unfold m_n. destruct (m_rows C) as [|a [|b [|? ?]]]; cbn [length nth]; intros A B L; try discriminate L.
  destruct a as [|[[t x] r] [|? ?]]; cbn in A; try discriminate A. destruct b as [|[[t' x'] r'] [|? ?]]; cbn in B; try discriminate B.
  injection A as -> ->. injection B as -> ->. exists r, r'. reflexivity.
Qed.
Lemma two_order C r r' s : m_rows C = [[(1, 0%N, r)]; [(0, 0%N, r')]] -> s < 2 -> sc_order C s 0 = Some [s; 1 - s].
Proof. intros E H. unfold sc_order, m_n. rewrite E. destruct s as [|[|s]]; [reflexivity|reflexivity|lia]. Qed.

Lemma two_cactus G v s x0 : mvalid G -> m_n G <= length v -> m_orig G <= length (m_pos G) -> clustering (m_n G) (fun u => nth u v 0) 2 ->
  cutw (m_n G) (gw G) (fun u => nth u v 0 =? 0) = 0%N ->
  s < m_n G -> nth_error (nth s (m_cont G) []) 0 = Some x0 -> x0 < m_orig G -> nth x0 (m_pos G) 0 = s ->
  exists M g, find_st_cactus v G s 2 0 = Some M /\ st_cactus G (fun u => nth u v 0) 0 M g.
Proof.
  intros HG Lv Lp CL Z Hs E0 Hx0 Px0. pose proof CL as [Bv On].
  destruct (contract_ok v G 2 HG Lv Bv Lp) as (C & EC & (VC & NC & TC) & CO & OC & LPC & LCC & CC & PC).
  assert (SC : symm 2 (wt (adj (m_rows C)))) by (rewrite <- NC; apply valid_symm, VC).
  assert (Cut : forall S, cutw 2 (wt (adj (m_rows C))) S = cutw (m_n G) (gw G) (fun u => S (nth u v 0))) by (intro S; apply (contraction_cut (m_n G) _ _ 2); auto).
  assert (Hrows : forall x, x < 2 -> pairs_of (nth x (m_rows C) []) = map (fun b => (b, wt (adj (m_rows C)) x b)) (filter (fun b => negb (b =? x)) (seq 0 2))).
  { intros x Hx. rewrite (pairs_from_tgts _ _ (TC x Hx)) by (apply NoDup_filter, seq_NoDup). apply map_ext. intro b. rewrite wt_sum. reflexivity. }
  set (w := wt (adj (m_rows C))) in *.
  assert (W01 : w 0 1 = 0%N). { rewrite <- Z. rewrite <- (Cut (fun p => p =? 0)). unfold cutw. cbn. lia. }
  assert (W10 : w 1 0 = 0%N) by (rewrite (SC 1 0) by lia; auto).
  assert (CZ : forall g f, g 0 < 2 -> g 1 < 2 -> g 0 <> g 1 -> cutw 2 (fun a b => w (g a) (g b)) f = 0%N).
  { intros g f H0 H1 D. assert (X : (g 0 = 0 /\ g 1 = 1) \/ (g 0 = 1 /\ g 1 = 0)) by lia. unfold cutw. cbn. destruct X as [[-> ->]|[-> ->]]; rewrite W01, W10; destruct (f 0), (f 1); reflexivity. }
  destruct (two_rows C 0%N) as (r & r' & ER); [rewrite Hrows by lia; cbn; rewrite W01; auto|rewrite Hrows by lia; cbn; rewrite W10; auto|auto|].
  set (s' := nth s v 0). assert (Hs' : s' < 2) by (apply Bv; auto). pose proof (two_order C r r' s' ER Hs') as EO. set (ord := [s'; 1 - s']) in *.
  assert (PO : Permutation ord (seq 0 2)). { unfold ord. destruct s' as [|[|?]]; [apply Permutation_refl|apply perm_swap|lia]. }
  destruct (vertices_made C 2 ord (m_orig G) NC OC LCC PO) as (M & EM & VM & NM & LM & OM & GM & LcM & LpM & CM & PM).
  { intros p y I. rewrite CC in I. apply filter_In in I. destruct I as [I _]. apply in_seq in I. lia. }
  { intros p q y I J. rewrite CC in I, J. apply filter_In in I, J. destruct I as [_ I], J as [_ J]. apply andb_true_iff in I, J. destruct I as [_ I], J as [_ J]. apply Nat.eqb_eq in I, J. congruence. }
  destruct (order_cut M 0 1 0%N VM) as (M' & EL & VM' & NM' & GM'); [lia|lia|lia|].
  assert (G0 : forall f, gcut M' f = 0%N). { intro f. rewrite GM', GM. unfold dif. destruct (Bool.eqb (f 0) (f 1)); reflexivity. }
  exists (m_finish M'), (fun u => index_of (nth u v 0) ord). split.
  - unfold find_st_cactus. rewrite E0, EC. rewrite (nth_error_nth' (m_pos C) 0) by lia. rewrite PC; auto; [|unfold live; rewrite Px0; apply Nat.ltb_lt; auto]. unfold cls. rewrite Px0. fold s'. rewrite EO, EM. rewrite ER. cbn [sc_scan length Nat.ltb Nat.leb Nat.sub sc_links]. rewrite EL. reflexivity.
  - apply (cactus_of G v 2 0%N C ord M M'); auto.
    + apply (same_order M 0 1 0%N); [congruence|auto|auto].
    + lia.
    + eapply order_shape; [eapply vertices_shape; eauto|left; reflexivity|exact EL].
    + assert (Er : forall x, nth x (m_rows M) [] = []).
      { intro x. pose proof (vertices_rows C ord M EM) as Q. rewrite Q. destruct (Nat.lt_ge_cases x (m_n C)); [apply nth_repeat|apply nth_overflow; rewrite repeat_length; auto]. }
      apply (order_nopar M 0 1 0%N M' VM); try lia; [intro x; rewrite Er; constructor|rewrite Er; intros []|exact EL].
    + intros a b Ha Hb Nab. exists (Nat.eqb a). split; [rewrite Nat.eqb_refl; destruct (Nat.eqb_spec a b); congruence|]. apply (G0 (Nat.eqb a)).
    + intros. apply N.le_0_l.
    + intros f Pf _. rewrite NM', NM in Pf. split; [auto|]. apply (CZ (fun a => nth a ord 0)); unfold ord; cbn [nth]; lia.
    + intros S _ _. exists S. auto.
Qed.
