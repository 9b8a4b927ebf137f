(* P_ParContract6.v - proofs about M_ParContract: the ending for a mutable graph; the whole run. *)
From Verif Require Import P_Cut.
From Verif Require Export P_ParContract5 P_Mutable P_MutableIO.

Section MutEnd.
Context (num : nat) (Sm : small num) (tab : list (N * N)).
(** the weights behind the keys ks *)
Definition at_key (ks : list N) (a b : nat) : N := if (a =? b) then 0%N else if existsb (N.eqb (key_of a b)) ks then tget (key_of a b) tab else 0%N.
Lemma existsb_key k ks : existsb (N.eqb k) ks = true <-> In k ks.
Proof. rewrite existsb_exists. split; [intros (x & I & Q); apply N.eqb_eq in Q; subst; auto|intro I; exists k; split; [auto|apply N.eqb_refl]]. Qed.
Lemma key_same a b x y : x < y -> y < num -> a < num -> b < num -> a <> b -> key_of a b = key_of x y -> (a = x /\ b = y) \/ (a = y /\ b = x).
Proof.
  intros Hx Hy Ha Hb N E. destruct (key_pair num x y Sm Hx Hy) as (_ & P2 & _). destruct (Nat.lt_ge_cases a b) as [L|L].
  - destruct (key_pair num a b Sm L Hb) as (_ & P & _). rewrite E, P2 in P. injection P as -> ->. auto.
  - destruct (key_pair num b a Sm ltac:(lia) Ha) as (P & _). rewrite E, P2 in P. injection P as -> ->. auto.
Qed.
Lemma mut_build_ok : forall ks past M, NoDup (past ++ ks) -> (forall k, In k ks -> edge_key num k) -> (forall k, In k ks -> has k tab = true) -> mvalid M -> m_n M = num ->
  (forall a b, a < num -> b < num -> wt (adj (m_rows M)) a b = at_key past a b) ->
  exists M', mut_build tab M ks = Some M' /\ mvalid M' /\ m_n M' = num /\ forall a b, a < num -> b < num -> wt (adj (m_rows M')) a b = at_key (past ++ ks) a b.
Proof.
  induction ks as [|k ks IH]; intros past M ND HE HT V Nn W; cbn [mut_build]; [exists M; rewrite app_nil_r; auto|].
  rewrite (HT k (or_introl eq_refl)). destruct (HE k (or_introl eq_refl)) as (x & y & Hx & Hy & Ek). destruct (key_pair num x y Sm Hx Hy) as (P1 & P2 & _). rewrite <- Ek in P1. rewrite P1. cbn [fst snd].
  unfold new_edge_order. destruct (Nat.ltb_spec x y); [|lia]. destruct (new_edge_ok M x y (tget k tab) V) as (M1 & E & V1 & N1 & Ws & _); [auto|lia|]. rewrite E.
  assert (Np : ~ In k past) by (intro I; apply NoDup_remove_2 in ND; apply ND, in_app_iff; auto).
  destruct (IH (past ++ [k]) M1) as (M' & R1 & R2 & R3 & R4); [rewrite <- app_assoc; exact ND|intros; apply HE; right; auto|intros; apply HT; right; auto|auto|lia| |].
  - intros a b Ha Hb. specialize (Ws a b ltac:(lia) ltac:(lia)). rewrite (W a b Ha Hb) in Ws. unfold at_key in *. rewrite existsb_app. cbn [existsb]. rewrite orb_false_r.
    destruct (Nat.eqb_spec a b) as [->|N]; [destruct (Nat.eqb_spec b x), (Nat.eqb_spec b y); cbn [andb orb] in Ws; lia|].
    destruct (N.eqb_spec (key_of a b) k) as [Q|Q].
    + assert (B : (a =? x) && (b =? y) || (a =? y) && (b =? x) = true). { assert (Exy : key_of x y = k) by (rewrite key_sym, <- Ek; auto). rewrite <- Exy in Q. destruct (key_same a b x y Hx Hy Ha Hb N Q) as [[-> ->]|[-> ->]]; rewrite !Nat.eqb_refl; cbn; [auto|]. apply orb_true_r. }
      rewrite B in Ws. assert (Z : existsb (N.eqb (key_of a b)) past = false). { destruct (existsb (N.eqb (key_of a b)) past) eqn:X; [|auto]. apply existsb_key in X. rewrite Q in X. contradiction. }
      rewrite Z in Ws. rewrite orb_true_r, Q. lia.
    + assert (B : (a =? x) && (b =? y) || (a =? y) && (b =? x) = false).
      { apply orb_false_iff. split; apply andb_false_iff; [destruct (Nat.eqb_spec a x) as [Ea|]; [right|left; auto]; apply Nat.eqb_neq; intro Eb|destruct (Nat.eqb_spec a y) as [Ea|]; [right|left; auto]; apply Nat.eqb_neq; intro Eb]; apply Q; rewrite Ea, Eb, Ek; [apply key_sym|reflexivity]. }
      rewrite B in Ws. rewrite orb_false_r. lia.
  - exists M'. rewrite <- app_assoc in R4. auto.
Qed.
End MutEnd.
Lemma start_zero k : mvalid (start_construction k) /\ m_n (start_construction k) = k /\ (forall a b, wt (adj (m_rows (start_construction k))) a b = 0%N).
Proof.
  assert (R : forall v, nth v (repeat (@nil half) k) [] = []) by (intro v; apply nth_repeat).
  unfold mvalid, start_construction. cbn [m_rows m_deg m_ne]. split; [split; [|split]|split].
  - intros v e t w r H. rewrite R in H. destruct e; discriminate H.
  - split; [rewrite !repeat_length; auto|]. intros v Hv. rewrite R. cbn. rewrite nth_repeat. reflexivity.
  - unfold count_exact. symmetry. apply sumN_zero. intros row Hr. apply repeat_spec in Hr. subst row. reflexivity.
  - unfold m_n. cbn. apply repeat_length.
  - intros a b. rewrite wt_ls, ls_nodead, R. reflexivity.
Qed.

(** ** the whole run *)
Section Whole.
Context (G : graph) (U : undirected G) (mapping : list nat) (num : nat) (S : small num) (HM : forall v, v < length G -> nth v mapping 0 < num).
Context (assign : list (list nat)) (HA : Permutation (concat assign) (seq 0 (length G))).
Let n := length G.
Let f v := nth v mapping 0.
Definition is_contraction (H : graph) : Prop := length H = num /\ undirected H /\ contraction_of n (wt G) f num (wt H) /\ forall v, NoDup (map fst (nth v H [])).
Theorem par_first ce sched : exists s, run1 ce (init1 G mapping num assign) sched = Some s /\ exists more s', run1 ce s more = Some s' /\ done1 s'.
Proof.
  destruct (run1_ok num S ce _ (items_ok G mapping num HM assign HA) sched _ (init1_ok G mapping num assign ce)) as (s & E & I & _). exists s. split; [exact E|].
  exact (more1 num S ce _ (items_ok G mapping num HM assign HA) _ s (le_n _) I).
Qed.
Theorem par_second b0 b1 ce j sched1 s1 : b0 < num -> b1 < num -> (ce = 0%N \/ ce = key_of b1 b0) -> j < length assign -> run1 ce (init1 G mapping num assign) sched1 = Some s1 -> done1 s1 ->
  exists s, settle ce b0 b1 j s1 = Some s /\
    (forall sched2, exists s2, run2 (h_tab s) (init2 s) sched2 = Some s2 /\ (exists more s2', run2 (h_tab s) s2 more = Some s2' /\ done2 s2') /\ (done2 s2 -> is_contraction (rows_of (h_deg s) s2))) /\
    (forall order, Permutation order (h_keys s) -> exists M, mut_build (h_tab s) (start_construction num) (concat order) = Some M /\ mvalid M /\ m_n M = num /\ contraction_of n (wt G) f num (wt (adj (m_rows M)))).
Proof.
  intros B0 B1 C J E1 D1. destruct (run1_ok num S ce _ (items_ok G mapping num HM assign HA) sched1 _ (init1_ok G mapping num assign ce)) as (s1' & E1' & I1 & L1). rewrite E1 in E1'. injection E1' as <-. cbn [init1 h_q] in L1. rewrite map_length in L1.
  destruct (settle_ok num S ce _ (items_ok G mapping num HM assign HA) b0 b1 j s1 B0 B1 C I1 D1) as (s & E2 & R & LK); [lia|]. exists s. split; [exact E2|].
  pose proof (r_ld _ _ _ _ _ R) as RL. pose proof (r_d _ _ _ _ _ R) as RD. pose proof (r_e _ _ _ _ _ R) as RE. pose proof (fun k I => proj2 (has_In k (h_tab s)) I) as RT. split.
  - intro sched2. pose proof (start_ok num (h_tab s) (h_deg s) (map fst (h_tab s)) RL RD (h_keys s) (r_ks _ _ _ _ _ R)) as I2.
    destruct (run2_ok num S (h_tab s) (h_deg s) (map fst (h_tab s)) RL RD RE RT sched2 _ _ I2) as (s2 & L2 & E3 & I3 & _). exists s2. split; [exact E3|]. split; [exact (more2 num S (h_tab s) (h_deg s) _ RL RD RE RT _ s2 L2 (le_n _) I3)|].
    intro D2. destruct (finished num S (h_tab s) (h_deg s) (map fst (h_tab s)) RL RD RE RT s2 L2 I3 D2) as [LH P]. split; [exact LH|]. apply (rows_weights G U mapping num S HM assign HA (h_tab s) (h_deg s) (h_keys s)); auto.
  - intros order PO. assert (PK : Permutation (concat order) (map fst (h_tab s))). { etransitivity; [|exact (r_ks _ _ _ _ _ R)]. clear -PO. induction PO; cbn [concat]; auto; [apply Permutation_app_head; auto|rewrite !app_assoc; apply Permutation_app_tail, Permutation_app_comm|etransitivity; eauto]. }
    destruct (start_zero num) as (V0 & N0 & W0).
    destruct (mut_build_ok num S (h_tab s) (concat order) [] (start_construction num)) as (M & E & V & Nn & W); auto.
    + cbn [app]. apply (Permutation_NoDup (l := map fst (h_tab s))); [symmetry; auto|apply (r_nd _ _ _ _ _ R)].
    + intros k I. apply RE. eapply Permutation_in; eauto.
    + intros k I. apply RT. eapply Permutation_in; eauto.
    + intros a b _ _. rewrite W0. unfold at_key. cbn. destruct (a =? b); reflexivity.
    + exists M. split; [exact E|]. split; [auto|]. split; [auto|]. intros p q Hp Hq Npq. rewrite (W p q Hp Hq). cbn [app]. unfold at_key. destruct (Nat.eqb_spec p q); [contradiction|].
      assert (T : tget (key_of p q) (h_tab s) = between G mapping p q). { rewrite (r_w _ _ _ _ _ R). destruct (Nat.lt_ge_cases q p) as [L|L]; [eapply items_total; eauto|rewrite key_sym, between_sym by auto; eapply items_total; eauto; lia]. }
      change (tget (key_of p q) (h_tab s) = between G mapping p q) in T. fold (between G mapping p q).
      destruct (existsb (N.eqb (key_of p q)) (concat order)) eqn:X; [exact T|]. etransitivity; [|exact T]. symmetry. apply tget_out. intro I. apply (Permutation_in _ (Permutation_sym PK)) in I. apply existsb_key in I. congruence.
Qed.
End Whole.
