(* P_Heavy.v - proofs about removeHeavyEdges (heavy_edges.h:29-94), part 1: deleting a leaf of the graph. *)
From Verif Require Import SpecCut SpecDyn SpecMutable M_Mutable P_Mutable P_Mutable2 P_Mutable3 P_Cut P_LocalSearch P_LocalSearch2 P_AllMincuts P_MutableIO Prop_Mutable P_Dynamic P_Dynamic2 M_StCactus M_Merge M_Recursive P_ContractStd2 P_StCactus9 P_Merge2 P_Merge3 P_Recursive2 P_Leaf P_Recursive9.

(** the graph of removeHeavyEdges after some leaves have been deleted: an original vertex is in it if its position is in range *)
Record lv (n : nat) (c : N) (G : mg) : Prop := {
  lv_valid : mvalid G; lv_last : m_last G = m_n G; lv_orig : m_orig G = n; lv_lp : length (m_pos G) = n;
  lv_groups : groups_exact (m_n G) (m_cont G) (m_pos G); lv_part : length (m_part G) = m_n G; lv_cut : length (m_cut G) = m_n G;
  lv_full : forall p, p < m_n G -> nth p (m_cont G) [] <> [];
  lv_heavy : heavy 1 (m_rows G); lv_low : atleast c (m_n G) (wt (adj (m_rows G))); lv_some : 1 <= m_n G }.
Definition live (G : mg) (x : nat) : Prop := nth x (m_pos G) 0 < m_n G.
(** u has one neighbour, t, and the weight of this edge is c *)
Definition lone (c : N) (G : mg) (u t : nat) : Prop := t < m_n G /\ t <> u /\ forall v, v < m_n G -> wt (adj (m_rows G)) u v = if v =? t then c else 0%N.

Lemma heavy_zero R : no_zero R -> heavy 1 R.
Proof.
  intro H. apply Forall_forall. intros row I. apply Forall_forall. intros [[t w] r] J. unfold hv. cbn. destruct (In_nth _ _ [] I) as (v & Hv & E). rewrite <- E in J. specialize (H v t w r J). lia.
Qed.
Lemma good_lv n c G : good n c G -> lv n c G.
Proof.
  intros [A1 A2 A3 A4 A5 A6 A7 A8 A9 A10 A11 A12]. constructor; auto; try apply A7. apply heavy_zero. auto.
Qed.

(** ** what deleteVertex keeps *)
Lemma hv_incident : forall cnt rows deg ne v k rows' deg' ne', heavy 1 rows -> delete_incident cnt rows deg ne v k = Some (rows', deg', ne') -> heavy 1 rows'.
Proof.
  induction cnt as [|cnt IH]; intros rows deg ne v k rows' deg' ne' H E; cbn [delete_incident] in E; [injection E as <- _ _; auto|].
  destruct (slot rows v k) as [[[t w] r]|]; [|discriminate E]. destruct (internal_delete rows t r) as [r1|] eqn:E1; [|discriminate E]. eapply IH; [|exact E]. eapply hv_idel; eauto.
Qed.
Lemma set_positions_length : forall xs pos p, length (set_positions pos xs p) = length pos.
Proof. induction xs as [|x xs IH]; intros pos p; [reflexivity|]. unfold set_positions in *. cbn [fold_left]. rewrite IH. apply upd_length. Qed.
Lemma delete_keeps G v G' : m_delete_vertex G v = Some G' -> heavy 1 (m_rows G) ->
  heavy 1 (m_rows G') /\ m_last G' = m_last G - 1 /\ m_orig G' = m_orig G /\ length (m_pos G') = length (m_pos G) /\ length (m_part G') = length (m_part G) - 1 /\ length (m_cut G') = length (m_cut G) - 1 /\
  m_cont G' = (if v <? m_n G - 1 then upd (m_cont G) v (nth (m_n G - 1) (m_cont G) []) else m_cont G).
Proof.
  intros E H. unfold m_delete_vertex in E. destruct (m_n G <=? v); [discriminate E|].
  destruct (delete_incident _ _ _ _ _ _) as [[[r1 d1] n1]|] eqn:E1; [|discriminate E]. pose proof (hv_incident _ _ _ _ _ _ _ _ _ H E1) as H1.
  destruct (if v <? m_n G - 1 then remap _ r1 _ _ _ else _) as [r2|] eqn:E2; [|discriminate E].
  assert (H2 : heavy 1 r2). { destruct (v <? m_n G - 1); [eapply hv_remap; eauto|injection E2 as <-; auto]. }
  injection E as <-. cbn [m_rows m_last m_orig m_pos m_part m_cut m_cont]. split; [|split; [auto|split; [auto|split; [|split; [|split]]]]].
  - unfold move_last. apply F_rl. apply F_upd; [exact H2|]. apply hv_row. auto.
  - destruct (v <? m_n G - 1); [rewrite !set_positions_length|]; auto.
  - unfold move_last. rewrite length_removelast, upd_length. auto.
  - unfold move_last. rewrite length_removelast, upd_length. auto.
  - reflexivity.
Qed.

(** ** sums without one vertex *)
Lemma NoDup_map_in {A B} (f : A -> B) l : (forall a b, In a l -> In b l -> f a = f b -> a = b) -> NoDup l -> NoDup (map f l).
Proof.
  intros Inj ND. induction ND as [|a l Na ND IH]; cbn; constructor.
  - intro I. apply in_map_iff in I as (b & E & Ib). apply Inj in E; [subst b; auto|right; auto|left; auto].
  - apply IH. intros x y Ix Iy. apply Inj; right; auto.
Qed.
Lemma bsum_ren m v (f : nat -> N) : v < m -> (bsum (m - 1) (fun a => f (ren v (m - 1)%nat a)) + f v)%N = bsum m f.
Proof.
  intro Hv. unfold bsum. rewrite <- (sumN_map f (ren v (m - 1)%nat)).
  assert (E : sumN f (map (ren v (m - 1)) (seq 0 (m - 1)) ++ [v]) = sumN f (seq 0 m)).
  { apply sumN_perm. apply NoDup_Permutation_bis.
    - apply NoDup_app_intro; [| |].
      + apply NoDup_map_in; [|apply seq_NoDup]. intros a b Ia Ib. apply in_seq in Ia, Ib. unfold ren. destruct (Nat.eqb_spec a v), (Nat.eqb_spec b v); lia.
      + constructor; [intros []|constructor].
      + intros x I [<-|[]]. apply in_map_iff in I as (a & Q & Ia). apply in_seq in Ia. unfold ren in Q. destruct (Nat.eqb_spec a v); lia.
    - rewrite app_length, map_length, !seq_length. cbn. lia.
    - intros x I. apply in_seq. apply in_app_iff in I as [I|[<-|[]]]; [|lia]. apply in_map_iff in I as (a & <- & Ia). apply in_seq in Ia. unfold ren. destruct (Nat.eqb_spec a v); lia. }
  rewrite <- E, sumN_app. f_equal. unfold sumN. cbn. lia.
Qed.
Lemma cut_ren m v W S : v < m -> cutw m W S =
  (cutw (m - 1) (fun a b => W (ren v (m - 1)%nat a) (ren v (m - 1)%nat b)) (fun a => S (ren v (m - 1)%nat a)) +
   bsum (m - 1) (fun a => if S (ren v (m - 1)%nat a) && negb (S v) then W (ren v (m - 1)%nat a) v else 0) + bsum m (fun b => if S v && negb (S b) then W v b else 0))%N.
Proof.
  intro Hv. unfold cutw. rewrite <- (bsum_ren m v) by auto. cbv beta. f_equal. rewrite <- bsum_add. apply bsum_ext. intros a Ha. rewrite <- (bsum_ren m v) by auto. reflexivity.
Qed.

Lemma ren_rg m u : u < m -> forall a, a < m - 1 -> ren u (m - 1) a < m /\ ren u (m - 1) a <> u.
Proof. intros Hu a Ha. unfold ren. destruct (Nat.eqb_spec a u); lia. Qed.
Lemma renb_rg m u : u < m -> forall a, a < m -> a <> u -> renb u (m - 1) a < m - 1 /\ ren u (m - 1) (renb u (m - 1) a) = a.
Proof.
  intros Hu a Ha Na. unfold renb. destruct (Nat.eqb_spec a (m - 1)) as [E|E]; unfold ren.
  - rewrite Nat.eqb_refl. lia.
  - destruct (Nat.eqb_spec a u); lia.
Qed.
Section Leaf.
Context (n : nat) (c : N) (G : mg) (LV : lv n c G) (u t : nat) (Hu : u < m_n G) (LO : lone c G u t).
Let m := m_n G.
Let back := m - 1.

Context (G' : mg) (NG : m_n G' = m - 1) (WG : forall a b, a < m - 1 -> b < m - 1 -> wt (adj (m_rows G')) a b = wt (adj (m_rows G)) (ren u back a) (ren u back b)).
Lemma sym_u a : a < m -> wt (adj (m_rows G)) a u = if a =? t then c else 0%N.
Proof. intro Ha. rewrite <- (proj2 (proj2 LO) a Ha). apply (valid_symm _ (proj1 (lv_valid _ _ _ LV))); auto. Qed.
Lemma leaf_cut S : S u = S t -> gcut G S = gcut G' (fun a => S (ren u back a)).
Proof.
  intro E. unfold gcut at 1. fold m. rewrite (cut_ren m u) by auto. fold back. rewrite (bsum_zero (m - 1)), (bsum_zero m).
  - rewrite !N.add_0_r. unfold gcut. rewrite NG. unfold cutw. apply bsum_ext. intros a Ha. apply bsum_ext. intros b Hb. rewrite WG by auto. reflexivity.
  - intros b Hb. rewrite (proj2 (proj2 LO) b Hb). destruct (Nat.eqb_spec b t) as [->|]; [|destruct (_ && _); auto]. rewrite E. destruct (S t); reflexivity.
  - intros a Ha. destruct (ren_rg m u Hu a Ha) as [Ra _]. fold back in Ra. rewrite sym_u by auto. destruct (Nat.eqb_spec (ren u back a) t) as [->|]; [|destruct (_ && _); auto]. rewrite E. destruct (S t); reflexivity.
Qed.
Lemma leaf_sep S : S u <> S t -> (gcut G' (fun a => S (ren u back a)) + c <= gcut G S)%N.
Proof.
  intro E. unfold gcut at 2. fold m. rewrite (cut_ren m u _ S) by auto. fold back. rewrite <- N.add_assoc. apply N.add_le_mono.
  - unfold gcut. rewrite NG. unfold cutw. apply bsum_le. intros a Ha. apply bsum_le. intros b Hb. rewrite WG by auto. lia.
  - destruct LO as (Ht & Nt & L). destruct (S u) eqn:Su; destruct (S t) eqn:St; try congruence.
    + etransitivity; [|apply N.le_add_l]. pose proof (bsum_In_le m (fun b => if true && negb (S b) then wt (adj (m_rows G)) u b else 0%N) t Ht) as X. cbv beta in X. rewrite St, (L t Ht), Nat.eqb_refl in X. exact X.
    + etransitivity; [|apply N.le_add_r]. destruct (renb_rg m u Hu t Ht Nt) as [B1 B2]. fold back in B1, B2.
      pose proof (bsum_In_le (m - 1) (fun a => if S (ren u back a) && negb false then wt (adj (m_rows G)) (ren u back a) u else 0%N) (renb u back t) B1) as X. cbv beta in X. rewrite B2, St, (sym_u t Ht), Nat.eqb_refl in X. exact X.
Qed.
(** a cut of the smaller graph, the leaf on the side of its neighbour *)
Definition up (S' : nat -> bool) (v : nat) : bool := if v =? u then S' (renb u back t) else S' (renb u back v).
Lemma up_cut S' : gcut G (up S') = gcut G' S'.
Proof.
  destruct LO as (Ht & Nt & L). rewrite leaf_cut.
  - apply gcut_ext. intros a Ha. rewrite NG in Ha. destruct (ren_rg m u Hu a Ha) as [A B]. fold back in A, B. unfold up. destruct (Nat.eqb_spec (ren u back a) u); [congruence|]. f_equal. apply renb_ren. unfold back. lia.
  - unfold up. rewrite Nat.eqb_refl. destruct (Nat.eqb_spec t u); [congruence|reflexivity].
Qed.
Lemma up_proper S' : proper (m_n G') S' -> proper m (up S').
Proof.
  rewrite NG. intros [(a & Ha & Sa) (b & Hb & Sb)]. split; [exists (ren u back a)|exists (ren u back b)].
  - destruct (ren_rg m u Hu a Ha) as [A B]. fold back in A, B. split; [auto|]. unfold up. destruct (Nat.eqb_spec (ren u back a) u); [congruence|]. rewrite renb_ren; auto. unfold back. lia.
  - destruct (ren_rg m u Hu b Hb) as [A B]. fold back in A, B. split; [auto|]. unfold up. destruct (Nat.eqb_spec (ren u back b) u); [congruence|]. rewrite renb_ren; auto. unfold back. lia.
Qed.
Lemma leaf_low : atleast c (m_n G') (wt (adj (m_rows G'))).
Proof. intros S' P. fold (gcut G' S'). rewrite <- up_cut. apply (lv_low _ _ _ LV). apply up_proper. auto. Qed.
End Leaf.
