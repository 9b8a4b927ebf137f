(* P_Merge6.v - proofs about mergeGraphs, part 6: the whole function. *)
From Verif Require Import SpecCut SpecDyn SpecMutable M_Mutable P_Mutable P_Cut P_Crossing P_LocalSearch P_LocalSearch2 P_AllMincuts P_MutableIO P_IsoFlow2 M_Branch P_ContractStd P_ContractStd2 M_StCactus M_Merge P_StCactus3 P_StCactus7 P_StCactus8 P_StCactus9 P_Merge P_Merge2 P_Merge3 P_Merge4 P_Merge5.

Lemma rep_compl n c F M Y : family n F -> rep n c F M -> F Y -> F (fun x => negb (Y x)).
Proof.
  intros Fa R FY. destruct (rp_complete _ _ _ _ R Y FY) as (f & E & H). destruct (fa_proper _ _ Fa Y FY) as [(a & Ha & Ya) (b & Hb & Yb)].
  assert (P : proper (m_n M) (fun x => negb (f x))) by (apply (proper_at _ _ (nth b (m_pos M) 0) (nth a (m_pos M) 0)); try (apply (rp_range _ _ _ _ R); auto); rewrite H by auto; [rewrite Yb|rewrite Ya]; reflexivity).
  eapply (fa_ext n F Fa); [|apply (rp_sound _ _ _ _ R _ P)].
  - intros x Hx. cbv beta. rewrite H by auto. reflexivity.
  - rewrite <- E. apply (cutw_compl _ _ f). apply (rep_symm n c F M R).
Qed.

Section Whole.
Context (n : nat) (c : N) (Pc : (0 < c)%N) (F1 F2 : (nat -> bool) -> Prop) (G1 G2 : mg) (R1 : rep n c F1 G1) (R2 : rep n c F2 G2) (Fa1 : family n F1) (Fa2 : family n F2).
Context (v1 v2 : nat) (Hv1 : v1 < m_n G1) (Hv2 : v2 < m_n G2).
Notation n1 := (m_n G1). Notation n2 := (m_n G2). Notation idn := (mg_id n1 v1 v2).
Notation pT := (fun x => nth x (m_pos G1) 0). Notation pN := (fun x => nth x (m_pos G2) 0).
Context (Out : forall x, x < n -> pT x <> v1 -> pN x = v2).
Context (Agree : F1 (fun x => pT x =? v1) <-> F2 (fun x => pT x =? v1)).

Lemma glued_single M p : glued G1 G2 v1 v2 n M -> p < n1 -> gcut M (fun x => Nat.eqb x p) = (gcut G1 (fun x => Nat.eqb x p) + (if Nat.eqb p v1 then gcut G2 (fun x => Nat.eqb x v2) else 0))%N.
Proof.
  intros Gd Hp. rewrite (gl_cut _ _ _ _ _ _ Gd). f_equal. destruct (Nat.eqb_spec p v1) as [->|Np].
  - apply gcut_ext. intros a Ha. destruct (Nat.eqb_spec a v2) as [->|Na]; [rewrite id_v2; apply Nat.eqb_refl|]. pose proof (id_new G1 G2 v1 v2 Hv1 Hv2 a Na). apply Nat.eqb_neq. lia.
  - apply (gcut_const G2 _ false). intros a Ha. apply Nat.eqb_neq. destruct (Nat.eq_dec a v2) as [->|Na]; [rewrite id_v2; congruence|]. pose proof (id_new G1 G2 v1 v2 Hv1 Hv2 a Na). lia.
Qed.

Lemma glued_three M : glued G1 G2 v1 v2 n M -> rep n c (Fboth F1 F2) M -> 2 <= n1 -> 2 <= n2 -> (forall x, x < n -> nth x (m_pos M) 0 <> v1) -> gcut M (fun x => x =? v1) <> (3 * c)%N.
Proof.
  intros Gd RM L1 L2 Em E3. rewrite (glued_single M v1 Gd Hv1), Nat.eqb_refl in E3.
  destruct (rep_degree n c Pc F1 G1 R1 v1 Hv1) as [j1 E1]. destruct (rep_degree n c Pc F2 G2 R2 v2 Hv2) as [j2 E2].
  pose proof (rp_low _ _ _ _ R1 _ (proper_single n1 v1 L1 Hv1)) as B1. pose proof (rp_low _ _ _ _ R2 _ (proper_single n2 v2 L2 Hv2)) as B2.
  change (c <= gcut G1 (fun x => Nat.eqb x v1))%N in B1. change (c <= gcut G2 (fun x => Nat.eqb x v2))%N in B2. rewrite E1, E2 in E3. rewrite E1 in B1. rewrite E2 in B2.
  assert (J1 : j1 <> 0%N) by (intros ->; lia). assert (J2 : j2 <> 0%N) by (intros ->; lia).
  assert (J3 : (j1 + j2 = 3)%N) by nia. clear E3 B1 B2.
  assert (Disj : forall x, x < n -> (pN x =? v2) = negb (pT x =? v1)).
  { intros x Hx. specialize (Em x Hx). rewrite (gl_pos _ _ _ _ _ _ Gd x Hx (rp_range _ _ _ _ R2 x Hx)) in Em. specialize (Out x Hx). cbv beta in *. destruct (Nat.eqb_spec (nth x (m_pos G2) 0) v2), (Nat.eqb_spec (nth x (m_pos G1) 0) v1); cbn [negb]; auto; congruence. }
  assert (J : j1 = 1%N \/ j2 = 1%N) by lia. destruct J as [-> | ->].
  - rewrite N.mul_1_l in E1. pose proof (rp_sound _ _ _ _ R1 _ (proper_single n1 v1 L1 Hv1) E1) as S. apply Agree in S. pose proof (rep_compl n c F2 G2 _ Fa2 R2 S) as S'.
    assert (S2 : F2 (fun x => pN x =? v2)) by (eapply (fa_ext n F2 Fa2); [|exact S']; intros x Hx; cbv beta; symmetry; apply Disj; auto).
    assert (Q : gcut G2 (fun x => x =? v2) = c). { apply (rep_single n c Pc F2 Fa2 G2 R2 v2 Hv2); auto. destruct (fa_proper _ _ Fa2 _ S2) as [(x & Hx & Ex) _]. exists x. split; [auto|]. apply Nat.eqb_eq. exact Ex. }
    rewrite Q in E2. assert (j2 = 1%N) by nia. lia.
  - rewrite N.mul_1_l in E2. pose proof (rp_sound _ _ _ _ R2 _ (proper_single n2 v2 L2 Hv2) E2) as S. pose proof (rep_compl n c F2 G2 _ Fa2 R2 S) as S'.
    assert (S1 : F1 (fun x => pT x =? v1)). { apply Agree. eapply (fa_ext n F2 Fa2); [|exact S']. intros x Hx. pose proof (Disj x Hx) as D. cbv beta in *. rewrite D. apply negb_involutive. }
    assert (Q : gcut G1 (fun x => x =? v1) = c). { apply (rep_single n c Pc F1 Fa1 G1 R1 v1 Hv1); auto. destruct (fa_proper _ _ Fa1 _ S1) as [(x & Hx & Ex) _]. exists x. split; [auto|]. apply Nat.eqb_eq. exact Ex. }
    rewrite Q in E1. assert (j1 = 1%N) by nia. lia.
Qed.

Theorem merge_rep fuel : exists M, merge_graphs fuel G1 v1 G2 v2 c = Some M /\ rep n c (Fboth F1 F2) M.
Proof.
  unfold merge_graphs. destruct (Nat.eqb_spec n2 1) as [E2|N2].
  { exists G1. split; [auto|]. eapply (rep_iff n c F1); [auto| |exact R1]. intro Y. unfold Fboth. split; [auto|]. intros [A|A]; [auto|]. destruct (rep_one n c F2 G2 Pc R2 E2 Y A). }
  destruct (Nat.eqb_spec n1 1) as [E1|N1].
  { exists G2. split; [auto|]. eapply (rep_iff n c F2); [auto| |exact R2]. intro Y. unfold Fboth. split; [auto|]. intros [A|A]; [|auto]. destruct (rep_one n c F1 G1 Pc R1 E1 Y A). }
  destruct (glue_rep n c Pc F1 F2 G1 G2 R1 R2 Fa1 Fa2 v1 v2 Hv1 Hv2 Out) as (M & E & Gd & RM). rewrite E.
  destruct (nth v1 (m_cont M) []) as [|y ys] eqn:Q; [|exists M; auto].
  assert (Hn : m_n M = n1 + (n2 - 1)) by apply (gl_n _ _ _ _ _ _ Gd). assert (Hv : v1 < m_n M) by lia.
  pose proof (rep_empty n c (Fboth F1 F2) M RM v1 Hv Q) as Em.
  apply (canonize_rep n c Pc (Fboth F1 F2) (both_family n F1 F2 Fa1 Fa2) M RM fuel v1 Hv); [lia|exact Em|]. apply glued_three; auto; lia.
Qed.
End Whole.
