(* P_Recursive8.v - proofs about internalRecursiveCactus, part 8: the choice of the flow edge and the flow. *)
From Verif Require Import SpecCut SpecDyn SpecFlow SpecMutable LibZ M_Mutable P_Mutable P_Mutable7 P_Cut P_LocalSearch P_LocalSearch2 P_AllMincuts P_MutableIO M_PushRelabel P_Flow P_Flow2 P_Flow3 P_Flow4 P_Flow5 P_Flow6 M_LimFlow Prop_Flow Prop_LimFlow P_IsoFlow2 P_Recursive M_StCactus M_Merge M_Branch M_Recursive P_StCactus9 P_ContractStd2 P_Merge3 P_Recursive2 P_Recursive3 P_Recursive7.

Section Edge.
Context (n : nat) (c : N) (Pc : (0 < c)%N) (G : mg) (GD : good n c G) (N2 : 2 <= m_n G).
Lemma deg_ge v : v < m_n G -> (c <= nth v (m_deg G) 0)%N.
Proof.
  intro Hv. rewrite (degree_cut G v (gd_valid _ _ _ GD) Hv). apply (gd_low _ _ _ GD). split; [exists v; split; [auto|apply Nat.eqb_refl]|].
  destruct (Nat.eq_dec v 0) as [->|N]; [exists 1|exists 0]; (split; [lia|apply Nat.eqb_neq; lia]).
Qed.
Lemma not_empty v : v < m_n G -> m_empty G v = false.
Proof. intro Hv. unfold m_empty. pose proof (gd_full _ _ _ GD v Hv). destruct (nth v (m_cont G) []); [congruence|reflexivity]. Qed.
Lemma row_some v : v < m_n G -> exists t w r, slot (m_rows G) v 0 = Some (t, w, r).
Proof.
  intro Hv. pose proof (deg_ge v Hv) as D. rewrite (proj2 (proj1 (proj2 (gd_valid _ _ _ GD)))) in D by exact Hv.
  unfold slot. destruct (nth v (m_rows G) []) as [|[[t w] r] l]; [cbn in D; lia|]. exists t, w, r. reflexivity.
Qed.
(** findFlowEdge *)
Lemma find_edge_ok v fuel : v < m_n G -> exists t w r, find_flow_edge (S fuel) G v = Some (v, 0, t) /\ slot (m_rows G) v 0 = Some (t, w, r).
Proof.
  intro Hv. destruct (row_some v Hv) as (t & w & r & S). exists t, w, r. split; [|auto]. cbn [find_flow_edge]. rewrite not_empty by auto.
  destruct (proj1 (gd_valid _ _ _ GD) v 0 t w r S) as (Ht & _). unfold slot in S. destruct (nth v (m_rows G) []) as [|h l]; [discriminate S|]. cbn in S. injection S as ->. cbn [full_edge]. rewrite not_empty by exact Ht. reflexivity.
Qed.

Definition best {A : Type} (key : nat -> option (N * A)) (l : list nat) (b : N * option A) : N * option A :=
  fold_left (fun (b : N * option A) i => match key i with Some (k, a) => if (fst b <? k)%N then (k, Some a) else b | None => b end) l b.
Lemma best_some (A : Type) (key : nat -> option (N * A)) : forall l b, (exists y, snd b = Some y) \/ (exists i k a, In i l /\ key i = Some (k, a) /\ (fst b < k)%N) ->
  exists y', snd (best key l b) = Some y' /\ (Some y' = snd b \/ exists i k, In i l /\ key i = Some (k, y')).
Proof.
  induction l as [|i l IH]; intros b H; unfold best; cbn [fold_left].
  - destruct H as [(y & H)|(i & _ & _ & [] & _)]. exists y. auto.
  - destruct (key i) as [[k a]|] eqn:E; [destruct (N.ltb_spec (fst b) k) as [L|L]|].
    + destruct (IH (k, Some a)) as (y' & E' & [Q|(j & k' & I & Q)]); [left; exists a; reflexivity| |]; exists y'; (split; [exact E'|]); right; [exists i, k|exists j, k']; cbn [snd] in *; (split; [cbn; auto|congruence]).
    + destruct (IH b) as (y' & E' & Q).
      * destruct H as [H|(j & k' & a' & [<-|I] & Ej & L')]; [auto|rewrite E in Ej; injection Ej as <- <-; lia|right; exists j, k', a'; auto].
      * exists y'. split; [exact E'|]. destruct Q as [Q|(j & k' & I & Q)]; [auto|right; exists j, k'; split; [right; auto|auto]].
    + destruct (IH b) as (y' & E' & Q).
      * destruct H as [H|(j & k' & a' & [<-|I] & Ej & L')]; [auto|congruence|right; exists j, k', a'; auto].
      * exists y'. split; [exact E'|]. destruct Q as [Q|(j & k' & I & Q)]; [auto|right; exists j, k'; split; [right; auto|auto]].
Qed.
Lemma fold_ext2 {A B} (f g : A -> B -> A) : (forall a b, f a b = g a b) -> forall l a, fold_left f l a = fold_left g l a.
Proof. intros E. induction l as [|b l IH]; intro a; cbn [fold_left]; [reflexivity|]. rewrite E. apply IH. Qed.

Lemma heavy_vertex_ok : exists v, heavy_vertex G = Some v /\ v < m_n G.
Proof.
  unfold heavy_vertex. rewrite (fold_ext2 _ (fun (b : N * option nat) i => match (if m_empty G i then None else Some (nth i (m_deg G) 0%N, i)) with Some (k, a) => if (fst b <? k)%N then (k, Some a) else b | None => b end)).
  2:{ intros b i. destruct (m_empty G i); cbn [negb]; [rewrite andb_false_r; reflexivity|rewrite andb_true_r; reflexivity]. }
  destruct (best_some nat (fun i => if m_empty G i then None else Some (nth i (m_deg G) 0%N, i)) (seq 0 (m_n G)) (0%N, None)) as (y & E & Q).
  - right. exists 0, (nth 0 (m_deg G) 0%N), 0. split; [apply in_seq; lia|]. rewrite not_empty by lia. split; [reflexivity|]. pose proof (deg_ge 0 ltac:(lia)). cbn [fst]. lia.
  - exists y. split; [exact E|]. destruct Q as [Q|(i & k & I & Q)]; [discriminate Q|]. apply in_seq in I. destruct (m_empty G i); [discriminate Q|]. injection Q as _ <-. lia.
Qed.
Lemma heavy_neighbour_ok v : v < m_n G -> exists e t w r, heavy_neighbour G v = Some (e, t) /\ slot (m_rows G) v e = Some (t, w, r).
Proof.
  intro Hv. unfold heavy_neighbour. set (key := fun e => match slot (m_rows G) v e with Some (t, _, _) => if m_empty G t then None else Some (nth t (m_deg G) 0%N, (e, t)) | None => None end).
  rewrite (fold_ext2 _ (fun (b : N * option (nat * nat)) i => match key i with Some (k, a) => if (fst b <? k)%N then (k, Some a) else b | None => b end)).
  2:{ intros b i. unfold key. destruct (slot (m_rows G) v i) as [[[t w] r]|]; [|reflexivity]. destruct (m_empty G t); cbn [negb]; [rewrite andb_false_r; reflexivity|rewrite andb_true_r; reflexivity]. }
  destruct (best_some (nat * nat) key (seq 0 (length (nth v (m_rows G) []))) (0%N, None)) as ([e t] & E & Q).
  - right. destruct (row_some v Hv) as (t & w & r & S). destruct (proj1 (gd_valid _ _ _ GD) v 0 t w r S) as (Ht & _). exists 0, (nth t (m_deg G) 0%N), (0, t). split; [apply in_seq; destruct (slot_lt _ _ _ _ S) as [_ X0]; unfold rl in X0; lia|].
    unfold key. rewrite S, not_empty by exact Ht. split; [reflexivity|]. pose proof (deg_ge t Ht). cbn [fst]. lia.
  - destruct Q as [Q|(i & k & I & Q)]; [discriminate Q|]. unfold key in Q. destruct (slot (m_rows G) v i) as [[[t' w] r]|] eqn:S; [|discriminate Q]. destruct (m_empty G t'); [discriminate Q|]. injection Q as _ <- <-.
    exists i, t', w, r. split; [exact E|exact S].
Qed.
(** maximumWeightedFlowEdge: an edge, for every random vertex of the fallback *)
Lemma weighted_edge_ok rv : exists s e t w r, max_weighted_edge G rv = Some (s, e, t) /\ slot (m_rows G) s e = Some (t, w, r).
Proof. unfold max_weighted_edge. destruct heavy_vertex_ok as (v & -> & Hv). destruct (heavy_neighbour_ok v Hv) as (e & t & w & r & -> & S). exists v, e, t, w, r. auto. Qed.
End Edge.

(** the flow *)
Lemma pr_flow_ok R s t pick gl : valid_rows R -> s < length R -> t < length R -> s <> t -> (forall k q, q <> [] -> In (pick k q) q) ->
  exists fuel x fl, (forall fuel', fuel <= fuel' -> pr_flow fuel' pick gl R s t = Some (x, fl)) /\ max_flow R [s; t] s (fun v e => nth e (nth v fl []) 0%Z) (Z.of_N x).
Proof.
  intros V Hs Ht Nst Hp. set (ts := [s; t]). assert (Hts : forall y, In y ts -> y < length R) by (intros y [<-|[<-|[]]]; auto). assert (Hsrc : In s ts) by (left; auto).
  assert (Hnd : NoDup ts) by (constructor; [intros [Q|[]]; auto|constructor; [intros []|constructor]]).
  destruct (start_ok R ts s V Hts Hsrc Hnd) as (s0 & E0 & I0).
  destruct (loop_ok R ts s V Hts Hsrc Hnd _ pick gl Hp _ _ 0 s0 I0 (le_n _) (le_n _)) as (fuel & st & H1 & I & Eq).
  destruct (source_set_ok R ts s V Hts Hsrc Hnd _ st I) as (l & Es & Nd & Ln & Ls & Lt & Sat & Cn).
  assert (Ms : mem l s = true) by (apply mem_In; auto).
  assert (Mt : forall t, In t ts -> t <> s -> mem l t = false) by (intros; apply mem_out; auto).
  assert (TF : total_flow ts s st = Z.of_N (cutw (length R) (wt (adj R)) (mem l))).
  { rewrite (value_ok R ts s Hts Hsrc Hnd _ st (mem l) I Eq Ms Mt). apply out_flow_eq. intros u v Hu Hv Su Sv e w r S. apply mem_In in Su. apply mem_out in Sv. eapply Sat; eauto. }
  exists fuel, (Z.to_N (total_flow ts s st)), (p_fl st). split.
  - intros fuel' Hf. unfold pr_flow. fold ts. assert (B : forallb (fun t => t <? length R) ts = true) by (apply forallb_forall; intros y Hy; apply Nat.ltb_lt; apply Hts; auto).
    rewrite B, E0. cbn [negb]. rewrite (H1 fuel' Hf). reflexivity.
  - rewrite Z2N.id by lia. change (max_flow R ts s (fun v e => eflow (p_fl st) v e) (total_flow ts s st)).
    eapply (final_max_flow R ts s _ st l V Hts Hsrc Hnd); eauto.
    intros S Ss St. pose proof (value_ok R ts s Hts Hsrc Hnd _ st S I Eq Ss St) as E. rewrite E.
    apply (out_flow_le R s _ (p_fl st) (p_ex st) S (i_f _ _ _ _ _ _ I)).
Qed.
