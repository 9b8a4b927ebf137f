(* P_StCactus8.v - proofs about findSTCactus, part 8: positions and contained vertices, and the whole function. *)
From Verif Require Import SpecCut SpecDyn SpecMutable M_Mutable P_Mutable P_Cut P_LocalSearch2 P_AllMincuts P_MutableIO M_StCactus P_Crossing P_StCactus P_StCactus3 P_StCactus4 P_StCactus5 P_StCactus6 P_StCactus7.

Definition same_core (M M' : mg) : Prop := m_rows M' = m_rows M /\ m_deg M' = m_deg M /\ m_ne M' = m_ne M /\ m_last M' = m_last M /\ m_orig M' = m_orig M.
Lemma core_refl M : same_core M M.
Proof. repeat split. Qed.
Lemma core_trans A B C : same_core A B -> same_core B C -> same_core A C.
Proof. intros (A1 & A2 & A3 & A4 & A5) (B1 & B2 & B3 & B4 & B5). repeat split; congruence. Qed.
Lemma core_valid M M' : same_core M M' -> mvalid M -> mvalid M'.
Proof. intros (A1 & A2 & A3 & _) V. unfold mvalid in *. rewrite A1, A2, A3. exact V. Qed.

Lemma set_cont_ok M p l : p < length (m_cont M) -> exists M', set_cont M p l = Some M' /\ same_core M M' /\ m_pos M' = m_pos M /\ m_cont M' = upd (m_cont M) p l.
Proof. intro H. unfold set_cont. destruct (Nat.ltb_spec p (length (m_cont M))); [|lia]. eexists. split; [reflexivity|]. repeat split. Qed.
Lemma set_pos_ok M x p : x < length (m_pos M) -> exists M', set_pos M x p = Some M' /\ same_core M M' /\ m_cont M' = m_cont M /\ m_pos M' = upd (m_pos M) x p.
Proof. intro H. unfold set_pos. destruct (Nat.ltb_spec x (length (m_pos M))); [|lia]. eexists. split; [reflexivity|]. repeat split. Qed.

Lemma clear_ok : forall ps M, (forall p, In p ps -> p < length (m_cont M)) -> exists M', fold_opt (fun M p => set_cont M p []) ps M = Some M' /\ same_core M M' /\ m_pos M' = m_pos M /\ length (m_cont M') = length (m_cont M) /\
  forall p, nth p (m_cont M') [] = if existsb (Nat.eqb p) ps then [] else nth p (m_cont M) [].
Proof.
  induction ps as [|p ps IH]; intros M H; cbn [fold_opt].
  - exists M. split; [reflexivity|]. split; [apply core_refl|]. auto.
  - assert (Hp : p < length (m_cont M)) by (apply H; left; auto). destruct (set_cont_ok M p [] Hp) as (M1 & E1 & S1 & P1 & C1). rewrite E1.
    destruct (IH M1) as (M' & E' & S' & P' & L' & C'). { intros q Iq. rewrite C1, upd_length. apply H. right. auto. }
    exists M'. split; [exact E'|]. split; [eapply core_trans; eauto|]. split; [congruence|]. split; [rewrite L', C1, upd_length; reflexivity|]. intro q. rewrite C', C1, nth_upd. cbn [existsb].
    destruct (existsb (Nat.eqb q) ps); [rewrite orb_true_r; reflexivity|]. rewrite orb_false_r. destruct (Nat.ltb_spec p (length (m_cont M))); [|lia]. rewrite andb_true_r. reflexivity.
Qed.

Section Contract.
Context (v : list nat) (G : mg) (k : nat) (HG : mvalid G) (Lv : m_n G <= length v) (Bv : forall u, u < m_n G -> nth u v 0 < k) (Lp : m_orig G <= length (m_pos G)).

(** the original vertices which are in G *)
Definition live (x : nat) : bool := nth x (m_pos G) 0 <? m_n G.
Definition cls (x : nat) : nat := nth (nth x (m_pos G) 0) v 0.

Lemma locate_ok : forall m M, m <= m_orig G -> length (m_cont M) = k -> m_orig G <= length (m_pos M) -> (forall p, nth p (m_cont M) [] = []) ->
  exists M', fold_opt (sc_locate v G) (seq 0 m) M = Some M' /\ same_core M M' /\ length (m_cont M') = k /\ length (m_pos M') = length (m_pos M) /\
    (forall p, nth p (m_cont M') [] = filter (fun x => live x && (cls x =? p)) (seq 0 m)) /\ (forall x, x < m -> live x = true -> nth x (m_pos M') 0 = cls x).
Proof.
  induction m as [|m IH]; intros M Hm Lc Lpm Z.
  - exists M. split; [reflexivity|]. split; [apply core_refl|]. split; [auto|]. split; [auto|]. split; [auto|]. intros; lia.
  - destruct (IH M ltac:(lia) Lc Lpm Z) as (M1 & E1 & S1 & C1 & P1 & Cn & Ps). rewrite seq_S, foldo_app, E1. cbn [fold_opt plus]. unfold sc_locate at 1.
    rewrite (nth_error_nth' (m_pos G) 0) by lia. fold (live m). destruct (live m) eqn:Lm.
    + assert (Hl : nth m (m_pos G) 0 < m_n G) by (apply Nat.ltb_lt; exact Lm). rewrite (nth_error_nth' v 0) by lia. fold (cls m).
      assert (Hc : cls m < k) by (apply Bv; auto). unfold add_cont. destruct (set_cont_ok M1 (cls m) (nth (cls m) (m_cont M1) [] ++ [m]) ltac:(lia)) as (M2 & E2 & S2 & P2 & C2). rewrite E2.
      destruct (set_pos_ok M2 m (cls m)) as (M3 & E3 & S3 & C3 & P3). { rewrite P2. lia. } rewrite E3. exists M3. split; [reflexivity|].
      split; [eapply core_trans; [exact S1|]; eapply core_trans; eauto|]. split; [rewrite C3, C2, upd_length; auto|]. split; [rewrite P3, upd_length, P2; auto|]. split.
      * intro p. rewrite C3, C2, nth_upd, filter_app. cbn [filter]. rewrite Lm. cbn [andb]. rewrite C1. destruct (Nat.ltb_spec (cls m) k); [|lia]. rewrite andb_true_r, (Nat.eqb_sym p). destruct (Nat.eqb_spec (cls m) p) as [<-|]; rewrite Cn; [reflexivity|]. rewrite app_nil_r. reflexivity.
      * intros x Hx Lx. rewrite P3, nth_upd, P2. destruct (Nat.eqb_spec x m) as [->|].
        -- destruct (Nat.ltb_spec m (length (m_pos M1))); [reflexivity|lia].
        -- cbn [andb]. apply Ps; [lia|auto].
    + exists M1. split; [reflexivity|]. split; [auto|]. split; [auto|]. split; [auto|]. split.
      * intro p. rewrite filter_app. cbn [filter]. rewrite Lm. cbn [andb]. rewrite app_nil_r. apply Cn.
      * intros x Hx Lx. apply Ps; auto. destruct (Nat.eq_dec x m); [congruence|lia].
Qed.

Lemma contract_ok : exists C, sc_contract v G k = Some C /\ sorted_complete k C /\ contraction_of (m_n G) (wt (adj (m_rows G))) (fun u => nth u v 0) k (wt (adj (m_rows C))) /\
  m_orig C = m_orig G /\ m_orig G <= length (m_pos C) /\ length (m_cont C) = k /\ (forall p, nth p (m_cont C) [] = filter (fun x => live x && (cls x =? p)) (seq 0 (m_orig G))) /\ (forall x, x < m_orig G -> live x = true -> nth x (m_pos C) 0 = cls x).
Proof.
  unfold sc_contract. set (A := set_orig (start_construction k) (m_orig G)). destruct (start_cut k) as (V0 & N0 & _).
  assert (LA : length (m_cont A) = k) by (cbn; rewrite map_length, seq_length; reflexivity).
  destruct (clear_ok (seq 0 k) A) as (M0 & E0 & S0 & P0 & C0 & Z0). { intros p Ip. apply in_seq in Ip. lia. } rewrite E0.
  destruct (locate_ok (m_orig G) M0) as (M1 & E1 & S1 & C1 & P1 & Cn & Ps); auto.
  { congruence. } { rewrite P0. cbn. rewrite app_length, seq_length, repeat_length. lia. }
  { intro p. rewrite Z0. destruct (existsb (Nat.eqb p) (seq 0 k)) eqn:Q; [reflexivity|]. apply nth_overflow. rewrite LA. destruct (Nat.le_gt_cases k p); [auto|]. exfalso. assert (X : existsb (Nat.eqb p) (seq 0 k) = true) by (apply existsb_exists; exists p; split; [apply in_seq; lia|apply Nat.eqb_refl]). congruence. }
  rewrite E1. assert (SA : same_core A M1) by (eapply core_trans; eauto). assert (V1 : mvalid M1) by (apply (core_valid A); [auto|exact V0]).
  assert (R1 : m_rows M1 = repeat [] k) by (destruct SA as [Q _]; exact Q). assert (N1 : m_n M1 = k) by (unfold m_n; rewrite R1; apply repeat_length).
  destruct (pairs_fold (sc_pairs k) M1 V1) as (M2 & E2 & V2 & N2 & P2 & C2 & O2 & W2 & T2).
  { intros a b I. unfold sc_pairs in I. apply in_flat_map in I. destruct I as (a' & Ia & I). apply in_map_iff in I. destruct I as (b' & E & Ib). injection E as <- <-. apply in_seq in Ia, Ib. lia. }
  rewrite E2. assert (Sc2 : sorted_complete k M2).
  { split; [auto|]. split; [lia|]. intros x Hx. rewrite T2, R1, nth_repeat, pairs_tgts by auto. reflexivity. }
  destruct (vertices_ok v G k HG Lv Bv (seq 0 (m_n G)) M2) as (M3 & E3 & Sc3 & P3 & C3 & O3 & W3); auto. { intros u Iu. apply in_seq in Iu. lia. }
  rewrite E3. cbn [option_map]. exists (m_finish M3). split; [reflexivity|]. change (m_rows (m_finish M3)) with (m_rows M3). change (m_cont (m_finish M3)) with (m_cont M3). change (m_pos (m_finish M3)) with (m_pos M3). change (m_orig (m_finish M3)) with (m_orig M3).
  split; [|split; [|split; [|split; [|split; [|split]]]]].
  - destruct Sc3 as (A1 & A2 & A3). split; [exact A1|]. split; [exact A2|exact A3].
  - assert (W0 : forall a b, a < k -> b < k -> wt (adj (m_rows M2)) a b = 0%N). { intros a b Ha Hb. rewrite W2 by lia. rewrite wt_sum, R1, nth_repeat. reflexivity. }
    assert (Sy3 : symm (m_n M3) (wt (adj (m_rows M3)))) by (destruct Sc3 as ((VR & _) & _); apply valid_symm; exact VR).
    assert (SyG : symm (m_n G) (wt (adj (m_rows G)))) by (destruct HG as [VR _]; apply valid_symm; exact VR).
    assert (K : forall p q, p < k -> q < p -> wt (adj (m_rows M3)) p q = bsum (m_n G) (fun u => bsum (m_n G) (fun z => if (nth u v 0 =? p) && (nth z v 0 =? q) then wt (adj (m_rows G)) u z else 0%N))).
    { intros p q Hp Hq. rewrite W3, W0 by lia. rewrite (sum_adds v G k HG Lv Bv p q Hq). reflexivity. }
    intros p q Hp Hq Npq. destruct (Nat.lt_ge_cases q p); [apply K; auto|]. rewrite Sy3 by (destruct Sc3 as (_ & -> & _); auto). rewrite K by lia. rewrite bsum_swap. apply bsum_ext. intros u Hu. apply bsum_ext. intros z Hz. rewrite (SyG u z) by auto. rewrite andb_comm. reflexivity.
  - rewrite O3, O2. destruct SA as (_ & _ & _ & _ & Q). exact Q.
  - rewrite P3, P2, P1, P0. cbn. rewrite app_length, seq_length, repeat_length. lia.
  - congruence.
  - intro p. rewrite C3, C2. apply Cn.
  - intros x Hx Lx. rewrite P3, P2. apply Ps; auto.
Qed.
End Contract.

(** ** the vertices of the cactus *)
Lemma positions_ok i : forall ys M, (forall y, In y ys -> y < length (m_pos M)) -> exists M', fold_opt (fun M x => set_pos M x i) ys M = Some M' /\ same_core M M' /\ m_cont M' = m_cont M /\ length (m_pos M') = length (m_pos M) /\
  forall y, (In y ys -> nth y (m_pos M') 0 = i) /\ (~ In y ys -> nth y (m_pos M') 0 = nth y (m_pos M) 0).
Proof.
  induction ys as [|x ys IH]; intros M H; cbn [fold_opt].
  - exists M. split; [reflexivity|]. split; [apply core_refl|]. split; [auto|]. split; [auto|]. intro y. split; [intros []|auto].
  - assert (Hx : x < length (m_pos M)) by (apply H; left; auto). destruct (set_pos_ok M x i Hx) as (M1 & E1 & S1 & C1 & P1). rewrite E1.
    destruct (IH M1) as (M' & E' & S' & C' & L' & P'). { intros y Iy. rewrite P1, upd_length. apply H. right. auto. }
    exists M'. split; [exact E'|]. split; [eapply core_trans; eauto|]. split; [congruence|]. split; [rewrite L', P1, upd_length; reflexivity|]. intro y. destruct (P' y) as [A B]. destruct (in_dec Nat.eq_dec y ys) as [I|I].
    + split; [intros _; auto|]. intro Q. exfalso. apply Q. right. auto.
    + rewrite (B I), P1, nth_upd. destruct (Nat.eqb_spec y x) as [->|].
      * destruct (Nat.ltb_spec x (length (m_pos M))); [|lia]. cbn [andb]. split; [auto|]. intro Q. exfalso. apply Q. left. auto.
      * cbn [andb]. split; [intros [|]; congruence|auto].
Qed.

Lemma fill_ok C : forall l M, (forall i x, In (i, x) l -> i < length (m_cont M) /\ x < length (m_cont C)) -> (forall i x y, In (i, x) l -> In y (nth x (m_cont C) []) -> y < length (m_pos M)) ->
  NoDup (map fst l) -> (forall i x j x' y, In (i, x) l -> In (j, x') l -> In y (nth x (m_cont C) []) -> In y (nth x' (m_cont C) []) -> i = j) ->
  exists M', fold_opt (sc_fill C) l M = Some M' /\ same_core M M' /\ length (m_cont M') = length (m_cont M) /\ length (m_pos M') = length (m_pos M) /\
    (forall i x, In (i, x) l -> nth i (m_cont M') [] = nth x (m_cont C) [] /\ forall y, In y (nth x (m_cont C) []) -> nth y (m_pos M') 0 = i) /\
    (forall i, ~ In i (map fst l) -> nth i (m_cont M') [] = nth i (m_cont M) []) /\
    (forall y, (forall i x, In (i, x) l -> ~ In y (nth x (m_cont C) [])) -> nth y (m_pos M') 0 = nth y (m_pos M) 0).
Proof.
  induction l as [|[i x] l IH]; intros M B By ND Dj; cbn [fold_opt].
  - exists M. split; [reflexivity|]. split; [apply core_refl|]. split; [auto|]. split; [auto|]. split; [intros i x []|auto].
  - destruct (B i x (or_introl eq_refl)) as [Hi Hx]. cbn [map fst] in ND. inversion ND as [|? ? Ni ND']; subst. unfold sc_fill at 1. cbn [fst snd]. rewrite (nth_error_nth' (m_cont C) []) by auto.
    destruct (set_cont_ok M i (nth x (m_cont C) []) Hi) as (M1 & E1 & S1 & P1 & C1). rewrite E1.
    destruct (positions_ok i (nth x (m_cont C) []) M1) as (M2 & E2 & S2 & C2 & L2 & P2). { intros y Iy. rewrite P1. apply (By i x y); [left; auto|auto]. } rewrite E2.
    assert (Lc : length (m_cont M2) = length (m_cont M)) by (rewrite C2, C1, upd_length; auto). assert (Lq : length (m_pos M2) = length (m_pos M)) by congruence.
    destruct (IH M2) as (M' & E' & S' & L' & Lp' & F1 & F2 & F3); auto.
    { intros j x' I. rewrite Lc. apply B. right. auto. } { intros j x' y I Iy. rewrite Lq. apply (By j x' y); [right; auto|auto]. }
    { intros j1 x1 j2 x2 y I1 I2. apply Dj; right; auto. }
    exists M'. split; [exact E'|]. split; [eapply core_trans; [exact S1|]; eapply core_trans; eauto|]. split; [congruence|]. split; [congruence|]. split; [|split].
    + intros j x' [Q|I]; [|apply F1; auto]. injection Q as <- <-. split.
      * rewrite F2 by auto. rewrite C2, C1, nth_upd, Nat.eqb_refl. destruct (Nat.ltb_spec i (length (m_cont M))); [reflexivity|lia].
      * intros y Iy. rewrite F3; [apply P2; auto|]. intros j x' I Iy'. assert (i = j) by (apply (Dj i x j x' y); auto; [left|right]; auto). subst j. apply Ni. apply in_map_iff. exists (i, x'). auto.
    + intros j Nj. cbn [map fst] in Nj. rewrite F2 by (intro Q; apply Nj; right; auto). rewrite C2, C1, nth_upd. destruct (Nat.eqb_spec j i) as [->|]; [exfalso; apply Nj; left; auto|reflexivity].
    + intros y Ny. rewrite F3 by (intros j x' I; apply (Ny j x'); right; auto). destruct (P2 y) as [_ Q]. rewrite Q by (apply (Ny i x); left; auto). congruence.
Qed.

Lemma nodes_iter : forall j n orig, j <= n -> Nat.iter j new_node (resize_pos (start_construction n) orig) =
  mk_mg (repeat [] n) (repeat 0%N n) (repeat 0 n) (repeat false n) (m_pos (resize_pos (start_construction n) orig)) (map (fun i => [i]) (seq 0 n)) j 0 0 orig.
Proof.
  induction j as [|j IH]; intros n orig H; [reflexivity|]. cbn [Nat.iter nat_rect]. change (nat_rect (fun _ : nat => mg) (resize_pos (start_construction n) orig) (fun _ : nat => new_node) j) with (Nat.iter j new_node (resize_pos (start_construction n) orig)). rewrite IH by lia.
  unfold new_node, m_n. cbn [m_rows m_last]. rewrite repeat_length. destruct (Nat.eqb_spec j n); [lia|]. reflexivity.
Qed.
Lemma vertices_made C n ord orig : m_n C = n -> m_orig C = orig -> length (m_cont C) = n -> Permutation ord (seq 0 n) -> (forall p y, In y (nth p (m_cont C) []) -> y < orig) -> (forall p q y, In y (nth p (m_cont C) []) -> In y (nth q (m_cont C) []) -> p = q) ->
  exists M, sc_vertices C ord = Some M /\ mvalid M /\ m_n M = n /\ m_last M = n /\ m_orig M = orig /\ (forall f, gcut M f = 0%N) /\ length (m_cont M) = n /\ length (m_pos M) = orig /\
    (forall i, i < n -> nth i (m_cont M) [] = nth (nth i ord 0) (m_cont C) []) /\ (forall i y, i < n -> In y (nth (nth i ord 0) (m_cont C) []) -> nth y (m_pos M) 0 = i).
Proof.
  intros Nc Oc Lc P By Dj. assert (Lo : length ord = n) by (rewrite (Permutation_length P), seq_length; auto). assert (ND : NoDup ord) by (apply (Permutation_NoDup (Permutation_sym P)), seq_NoDup).
  unfold sc_vertices. rewrite Lo, Nc, Oc, nodes_iter by auto. set (M0 := mk_mg _ _ _ _ _ _ _ _ _ _).
  assert (L0 : length (m_cont M0) = n) by (cbn; rewrite map_length, seq_length; auto). assert (P0 : length (m_pos M0) = orig). { cbn. rewrite firstn_length, app_length, seq_length, repeat_length. lia. }
  assert (In_c : forall i x, In (i, x) (combine (seq 0 n) ord) -> i < n /\ x = nth i ord 0 /\ x < n).
  { intros i x I. destruct (In_nth _ _ (0, 0) I) as (j & Hj & E). rewrite combine_length, seq_length, Lo in Hj. rewrite combine_nth in E by (rewrite seq_length; auto). rewrite seq_nth in E by lia. injection E as <- <-. cbn [plus]. split; [lia|]. split; [reflexivity|].
    assert (In (nth j ord 0) (seq 0 n)) by (apply (Permutation_in _ P), nth_In; lia). apply in_seq in H. lia. }
  assert (In_c' : forall i, i < n -> In (i, nth i ord 0) (combine (seq 0 n) ord)).
  { intros i Hi. replace (i, nth i ord 0) with (nth i (combine (seq 0 n) ord) (0, 0)) by (rewrite combine_nth, seq_nth by (try rewrite seq_length; lia); reflexivity). apply nth_In. rewrite combine_length, seq_length. lia. }
  destruct (fill_ok C (combine (seq 0 n) ord) M0) as (M & E & S & L & Lq & F1 & _ & _).
  - intros i x I. apply In_c in I. rewrite L0, Lc. lia.
  - intros i x y I Iy. rewrite P0. apply (By x y); auto.
  - assert (Ef : map fst (combine (seq 0 n) ord) = seq 0 n). { clear - Lo. revert Lo. generalize 0 as a. revert ord. induction n as [|m IHm]; intros ord a H; [reflexivity|]. destruct ord as [|o ord]; [discriminate H|]. cbn. f_equal. apply IHm. cbn in H. lia. } rewrite Ef. apply seq_NoDup.
  - intros i x j x' y I1 I2 Y1 Y2. pose proof (Dj _ _ _ Y1 Y2) as Q. apply In_c in I1, I2. destruct I1 as (A1 & A2 & _), I2 as (B1 & B2 & _). apply (proj1 (NoDup_nth ord 0) ND); try lia; congruence.
  - rewrite E. cbn [option_map]. exists (m_finish M). destruct (start_cut n) as (V0 & N0 & G0). pose proof S as (R & D & Ne & La & Or). cbn in R, D, Ne, La, Or.
    assert (V : mvalid M) by (apply (core_valid M0); [exact S|exact V0]).
    split; [reflexivity|]. split; [exact V|]. split; [unfold m_n; cbn; rewrite R; apply repeat_length|]. split; [unfold m_finish, m_n; cbn; rewrite R; apply repeat_length|]. split; [exact Or|].
    split; [intro f; unfold gcut, m_n; cbn [m_finish m_rows]; rewrite R; apply G0|]. split; [cbn; congruence|]. split; [cbn; congruence|]. split.
    + intros i Hi. apply (F1 i (nth i ord 0)). auto.
    + intros i y Hi Iy. apply (F1 i (nth i ord 0)); auto.
Qed.
