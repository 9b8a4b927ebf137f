(* P_Mutable3.v - proofs about mutable_graph: positions, deleteVertex. *)
From Verif Require Import SpecCut P_Cut P_Mutable P_Mutable2 M_Mutable.

Lemma ls_live_ext D R f f' u :
  (forall e t w r, slot R u e = Some (t, w, r) -> D u e = false -> f t w = f' t w) -> ls D R f u = ls D R f' u.
Proof.
  intro H. unfold ls. apply bsum_ext. intros e _. unfold val. destruct (slot R u e) as [[[t w] r]|] eqn:Q; [|reflexivity].
  destruct (D u e) eqn:De; [reflexivity|]. eapply H; eauto.
Qed.
Lemma ls_D_ext D D' R f u : (forall e, e < rl R u -> D u e = D' u e) -> ls D R f u = ls D' R f u.
Proof. intro H. unfold ls. apply bsum_ext. intros e He. unfold val. rewrite H by auto. reflexivity. Qed.

Lemma set_positions_length xs : forall pos p, length (set_positions pos xs p) = length pos.
Proof. induction xs as [|x xs IH]; intros pos p; [reflexivity|]. cbn. fold (set_positions (upd pos x p) xs p). rewrite IH. apply upd_length. Qed.

Lemma nth_set_positions xs : forall pos p y, y < length pos ->
  nth y (set_positions pos xs p) 0 = if existsb (Nat.eqb y) xs then p else nth y pos 0.
Proof.
  induction xs as [|x xs IH]; intros pos p y Hy; [reflexivity|]. cbn. fold (set_positions (upd pos x p) xs p).
  rewrite IH by (rewrite upd_length; auto). destruct (existsb (Nat.eqb y) xs); [rewrite orb_true_r; reflexivity|]. rewrite orb_false_r.
  destruct (Nat.eqb_spec y x) as [->|]; [apply nth_upd_eq; auto|apply nth_upd_neq; auto].
Qed.

Lemma existsb_eqb_In y xs : existsb (Nat.eqb y) xs = true <-> In y xs.
Proof.
  rewrite existsb_exists. split.
  - intros [x [I E]]. apply Nat.eqb_eq in E. subst. auto.
  - intro I. exists y. split; [auto|apply Nat.eqb_refl].
Qed.

Lemma groups_mem n cont pos p y : groups_exact n cont pos -> p < n -> y < length pos -> existsb (Nat.eqb y) (nth p cont []) = (nth y pos 0 =? p).
Proof.
  intros [_ H] Hp Hy. destruct (Nat.eqb_spec (nth y pos 0) p) as [E|E].
  - apply existsb_eqb_In, H; auto.
  - destruct (existsb (Nat.eqb y) (nth p cont [])) eqn:Q; [|reflexivity]. apply existsb_eqb_In, H in Q; [|auto]. destruct Q. congruence.
Qed.

Lemma nth_move_last {A} (l : list A) v d a : v < length l -> a < length l - 1 -> nth a (move_last l v d) d = nth (ren v (length l - 1) a) l d.
Proof.
  intros Hv Ha. unfold move_last. rewrite nth_removelast by (rewrite upd_length; auto). unfold ren.
  destruct (Nat.eqb_spec a v) as [->|]; [apply nth_upd_eq; auto|apply nth_upd_neq; auto].
Qed.
Lemma length_move_last {A} (l : list A) v d : length (move_last l v d) = length l - 1.
Proof. unfold move_last. rewrite length_removelast, upd_length. reflexivity. Qed.

Lemma delete_incident_ok v cnt : forall R deg ne k,
  let D := fun a b => (a =? v) && (b <? k) in
  linked D R -> k + cnt = rl R v -> length deg = length R ->
  (forall u, u < length R -> u <> v -> nth u deg 0%N = ls D R fd u) -> ne = bsum (length R) (ls D R fc) ->
  exists R' deg' ne', delete_incident cnt R deg ne v k = Some (R', deg', ne') /\
    let D' := fun a b => (a =? v) in
    linked D' R' /\ length R' = length R /\ length deg' = length R /\
    (forall u, u < length R -> u <> v -> nth u deg' 0%N = ls D' R' fd u) /\ ne' = bsum (length R) (ls D' R' fc) /\
    forall g u, u <> v -> (forall w, g v w = 0%N) -> ls D' R' g u = ls D R g u.
Proof.
  induction cnt as [|cnt IH]; intros R deg ne k D L Hk LD DG NE.
  - assert (X : forall a b, b < rl R a -> D a b = (a =? v)).
    { intros a b Hb. unfold D. destruct (Nat.eqb_spec a v) as [->|]; [|reflexivity]. cbn. apply Nat.ltb_lt. lia. }
    exists R, deg, ne. split; [reflexivity|]. cbn zeta. split; [apply linked_ext with (D := D); auto|]. split; [auto|]. split; [auto|].
    split; [intros u Hu Nu; rewrite DG by auto; apply ls_D_ext; auto|]. split.
    + rewrite NE. apply bsum_ext. intros u _. apply ls_D_ext. auto.
    + intros g u _ _. apply ls_D_ext. intros e He. symmetry. auto.
  - cbn [delete_incident]. destruct (slot_some R v k ltac:(lia)) as (t & w & r & Sv). rewrite Sv.
    assert (Dv : D v k = false) by (unfold D; rewrite Nat.eqb_refl, Nat.ltb_irrefl; reflexivity).
    destruct (L v k t w r Sv Dv) as [Ht [Nt [_ St]]].
    destruct (drop_ok D R v k t w r L Sv Dv) as (R1 & E & N1 & RL1 & _ & _ & LK & C).
    { intro b. unfold D. destruct (Nat.eqb_spec t v); [congruence|reflexivity]. }
    rewrite E.
    assert (DX : forall a b, dadd D v k a b = (a =? v) && (b <? S k)).
    { intros a b. unfold dadd, D. destruct (Nat.eqb_spec a v); cbn [andb orb]; [|reflexivity].
      destruct (Nat.ltb_spec b k), (Nat.eqb_spec b k), (Nat.ltb_spec b (S k)); try reflexivity; lia. }
    assert (LSX : forall f u, ls (fun a b => (a =? v) && (b <? S k)) R1 f u = ls (dadd D v k) R1 f u).
    { intros f u. apply ls_D_ext. intros e _. symmetry. apply DX. }
    destruct (IH R1 (deg_sub deg t w) (ne - 2)%N (S k)) as (R' & deg' & ne' & E' & L' & N' & LD' & DG' & NE' & G').
    { apply linked_ext with (D := dadd D v k); auto. }
    { rewrite RL1. destruct (Nat.eqb_spec v t); [congruence|]. lia. }
    { unfold deg_sub. rewrite upd_length. lia. }
    { rewrite N1. intros u Hu Nu. rewrite LSX. specialize (C fd u). destruct (Nat.eqb_spec u v); [congruence|]. unfold deg_sub.
      destruct (Nat.eqb_spec u t) as [Eu|Nut].
      - subst u. rewrite nth_upd_eq by lia. rewrite DG by auto. unfold fd in *. lia.
      - rewrite nth_upd_neq by auto. rewrite DG by auto. lia. }
    { rewrite N1, NE.
      assert (P : (bsum (length R) (ls (dadd D v k) R1 fc) + 2 = bsum (length R) (ls D R fc))%N).
      { rewrite <- (pairf_count (length R) v t w) by (auto; apply (slot_lt _ _ _ _ Sv)). rewrite <- bsum_add. apply bsum_ext. intros i _.
        rewrite C. unfold pairf. lia. }
      rewrite <- P. rewrite (bsum_ext (length R) (ls (fun a b => (a =? v) && (b <? S k)) R1 fc) (ls (dadd D v k) R1 fc)); [lia|].
      intros i _. apply LSX. }
    rewrite N1 in *. exists R', deg', ne'. split; [auto|]. split; [auto|]. split; [auto|]. split; [auto|]. split; [auto|]. split; [auto|].
    intros g u Nu Hg. rewrite G' by auto. rewrite LSX. rewrite (C g u). destruct (Nat.eqb_spec u v); [congruence|].
    destruct (u =? t); rewrite ?Hg; lia.
Qed.

Lemma renb_ren v back u : u <> back -> renb v back (ren v back u) = u.
Proof.
  intro N. unfold ren, renb. destruct (Nat.eqb_spec u v) as [->|]; [rewrite Nat.eqb_refl; reflexivity|].
  destruct (Nat.eqb_spec u back); [congruence|reflexivity].
Qed.
Lemma ren_renb v back t : t <> v -> ren v back (renb v back t) = t.
Proof.
  intro N. unfold ren, renb. destruct (Nat.eqb_spec t back) as [->|]; [rewrite Nat.eqb_refl; reflexivity|].
  destruct (Nat.eqb_spec t v); [congruence|reflexivity].
Qed.
Lemma ren_lt v n u : v < n -> u < n - 1 -> ren v (n - 1) u < n.
Proof. intros. unfold ren. destruct (u =? v); lia. Qed.
Lemma ren_neq v n u : v < n -> u < n - 1 -> ren v (n - 1) u <> v.
Proof. intros. unfold ren. destruct (Nat.eqb_spec u v); lia. Qed.

(** weight of a renamed vertex *)
Lemma fw_renb D R v back x u : linked D R -> (forall c, D v c = true) -> x <> back ->
  ls D R (fun t w => fw x (renb v back t) w) u = ls D R (fw (ren v back x)) u.
Proof.
  intros L Dv Nx. apply ls_live_ext. intros e t w r S De. pose proof (live_not_dead_row D R v u e t w r L Dv S De) as Nt.
  unfold fw. destruct (Nat.eqb_spec (renb v back t) x) as [E|E], (Nat.eqb_spec t (ren v back x)) as [E2|E2]; try reflexivity.
  - subst x. rewrite ren_renb in E2 by auto. congruence.
  - subst t. rewrite renb_ren in E by auto. congruence.
Qed.

Theorem delete_vertex_ok G v : mvalid G -> v < m_n G -> length (m_part G) = m_n G -> length (m_cut G) = m_n G ->
  let back := m_n G - 1 in
  exists G', m_delete_vertex G v = Some G' /\ mvalid G' /\ m_n G' = m_n G - 1 /\
    (forall a b, a < m_n G - 1 -> b < m_n G - 1 -> wt (adj (m_rows G')) a b = wt (adj (m_rows G)) (ren v back a) (ren v back b)) /\
    (forall a, a < m_n G - 1 -> nth a (m_part G') 0 = nth (ren v back a) (m_part G) 0 /\ nth a (m_cut G') false = nth (ren v back a) (m_cut G) false) /\
    (groups_exact (m_n G) (m_cont G) (m_pos G) ->
       groups_exact (m_n G') (m_cont G') (m_pos G') /\ length (m_pos G') = length (m_pos G) /\
       forall x, x < length (m_pos G) -> nth x (m_pos G) 0 < m_n G -> nth x (m_pos G) 0 <> v ->
                 nth x (m_pos G') 0 = renb v back (nth x (m_pos G) 0)).
Proof.
  intros [V [DG CN]] Hv LP LC back. unfold m_delete_vertex. destruct (Nat.leb_spec (m_n G) v); [lia|]. fold back.
  set (R := m_rows G) in *. unfold m_n in *. fold R in Hv, LP, LC, back |- *.
  apply deg_ls in DG. destruct DG as [LD DG]. apply cnt_ls in CN. pose proof (proj2 (linked_valid R) V) as L.
  assert (D0 : forall a b, nodead a b = (a =? v) && (b <? 0)) by (intros a b; unfold nodead; destruct (b <? 0) eqn:Q; [apply Nat.ltb_lt in Q; lia|rewrite andb_false_r; reflexivity]).
  destruct (delete_incident_ok v (rl R v) R (m_deg G) (m_ne G) 0) as (R1 & deg1 & ne1 & E & L1 & N1 & LD1 & DG1 & NE1 & G1).
  { apply linked_ext with (D := nodead); auto. } { reflexivity. } { auto. }
  { intros u Hu _. rewrite DG by auto. apply ls_D_ext. intros; apply D0. }
  { rewrite CN. apply bsum_ext. intros u _. apply ls_D_ext. intros; apply D0. }
  unfold rl in E at 1. rewrite E. set (D := fun a _ : nat => a =? v) in *.
  assert (Dv : forall b, D v b = true) by (intro b; unfold D; apply Nat.eqb_refl).
  assert (EX : exists R2, (if v <? back then remap (length (nth back R1 [])) R1 back v 0 else Some R1) = Some R2 /\
    let R' := move_last R2 v [] in length R' = length R1 - 1 /\
    (forall a b, a < length R1 - 1 -> slot R' a b = option_map (retgt D v (length R1 - 1) (ren v (length R1 - 1) a) b) (slot R1 (ren v (length R1 - 1) a) b)) /\
    (forall a, a < length R1 - 1 -> rl R' a = rl R1 (ren v (length R1 - 1) a))).
  { destruct (Nat.ltb_spec v back) as [Lt|Ge].
    - destruct (remap_move D R1 v L1) as (R2 & E2 & P); auto; try (rewrite N1; exact Lt).
      { intro b. unfold D. apply Nat.eqb_neq. rewrite N1. unfold back in Lt. lia. }
      exists R2. split; [|exact P]. rewrite N1 in E2. exact E2.
    - assert (v = back) by (unfold back in *; lia). subst v. exists R1. split; [reflexivity|]. cbn zeta.
      unfold move_last. rewrite N1. fold back.
      split; [rewrite length_removelast, upd_length; lia|].
      assert (RN : forall a, a < back -> ren back back a = a) by (intros a Ha; unfold ren; destruct (Nat.eqb_spec a back); lia).
      split.
      + intros a b Ha. rewrite RN by auto. rewrite slot_removelast by (rewrite upd_length, N1; auto).
        rewrite slot_upd by lia. destruct (Nat.eqb_spec a back); [lia|]. destruct (slot R1 a b) as [[[t w] r]|] eqn:Q; [|reflexivity].
        cbn. unfold retgt. cbn. assert (Da : D a b = false) by (unfold D; apply Nat.eqb_neq; auto). rewrite Da. cbn.
        pose proof (live_not_dead_row D R1 back a b t w r L1 Dv Q Da). destruct (Nat.eqb_spec t back); [congruence|reflexivity].
      + intros a Ha. rewrite RN by auto. rewrite rl_removelast by (rewrite upd_length, N1; auto). rewrite rl_upd by lia.
        destruct (Nat.eqb_spec a back); [lia|reflexivity]. }
  destruct EX as (R2 & E2 & N2 & SL2 & RL2). rewrite E2. set (R' := move_last R2 v []) in *.
  destruct (rename_ok D R1 v R' L1 ltac:(lia) Dv) as (L' & LS' & CN'); auto.
  { intros Lt b. unfold D. apply Nat.eqb_neq. lia. }
  rewrite N1 in *. fold back in L', LS', CN', N2 |- *.
  assert (DN : forall a b, b < rl R' a -> dren D v back a b = nodead a b).
  { intros a b Hb. unfold dren, D, nodead. apply Nat.eqb_neq. apply ren_neq; [auto|]. apply rl_lt in Hb. lia. }
  assert (LSN : forall f u, ls nodead R' f u = ls (dren D v back) R' f u).
  { intros f u. apply ls_D_ext. intros e He. symmetry. auto. }
  eexists. split; [reflexivity|]. cbn [m_rows m_deg m_part m_cut m_pos m_cont m_last m_ne m_pc m_orig].
  split; [split; [|split]|split; [auto|split; [|split]]]; cbn [m_rows m_deg m_part m_cut m_pos m_cont m_last m_ne m_pc m_orig].
  - apply linked_valid. apply linked_ext with (D := dren D v back); auto.
  - apply deg_ls. split; [rewrite length_move_last; lia|]. rewrite N2. intros x Hx. rewrite nth_move_last by lia. rewrite LD1. fold back.
    rewrite LSN, LS' by auto. rewrite DG1 by (apply ren_lt || apply ren_neq; auto). reflexivity.
  - apply cnt_ls. rewrite (bsum_ext _ (ls nodead R' fc) (ls (dren D v back) R' fc)); [rewrite CN'; auto|]. intros i _. apply LSN.
  - intros a b Ha Hb. rewrite !wt_ls, LSN, LS' by auto. rewrite fw_renb; [|auto|auto|unfold back; lia].
    rewrite G1.
    + apply ls_D_ext. intros; symmetry; apply D0.
    + apply ren_neq; auto.
    + intro w. unfold fw. destruct (Nat.eqb_spec v (ren v back b)) as [X|]; [|reflexivity]. exfalso. symmetry in X. revert X. apply ren_neq; auto.
  - intros a Ha. rewrite !nth_move_last by lia. rewrite LP, LC. auto.
  - intro GE. pose proof GE as [GL GM].
    assert (LP' : length (if v <? back then set_positions (set_positions (m_pos G) (nth back (m_cont G) []) v) (nth v (m_cont G) []) back else m_pos G) = length (m_pos G))
      by (destruct (v <? back); rewrite ?set_positions_length; reflexivity).
    assert (PV : forall x, x < length (m_pos G) ->
      nth x (if v <? back then set_positions (set_positions (m_pos G) (nth back (m_cont G) []) v) (nth v (m_cont G) []) back else m_pos G) 0
      = if nth x (m_pos G) 0 =? v then back else renb v back (nth x (m_pos G) 0)).
    { intros x Hx. destruct (Nat.ltb_spec v back) as [Lt|Ge].
      - rewrite nth_set_positions by (rewrite set_positions_length; auto). rewrite (groups_mem (length R) (m_cont G) (m_pos G) v) by auto.
        rewrite nth_set_positions by auto. rewrite (groups_mem (length R) (m_cont G) (m_pos G) back) by (auto; unfold back; lia). reflexivity.
      - assert (v = back) by (unfold back in *; lia). subst v. unfold renb. destruct (Nat.eqb_spec (nth x (m_pos G) 0) back); auto. }
    split; [split|].
    + rewrite N2. destruct (v <? back); rewrite ?upd_length; lia.
    + rewrite LP', N2. intros p x Hp.
      assert (CV : nth p (if v <? back then upd (m_cont G) v (nth back (m_cont G) []) else m_cont G) [] = nth (ren v back p) (m_cont G) []).
      { destruct (Nat.ltb_spec v back) as [Lt|Ge].
        - unfold ren. destruct (Nat.eqb_spec p v) as [->|]; [apply nth_upd_eq; lia|apply nth_upd_neq; auto].
        - unfold ren. destruct (Nat.eqb_spec p v); [unfold back in *; lia|reflexivity]. }
      rewrite CV. rewrite GM by (apply ren_lt; auto). split.
      * intros [Hx Ex]. split; [auto|]. rewrite PV by auto. rewrite Ex.
        destruct (Nat.eqb_spec (ren v back p) v) as [X|]; [exfalso; revert X; apply ren_neq; auto|]. apply renb_ren. unfold back; lia.
      * intros [Hx Ex]. split; [auto|]. rewrite PV in Ex by auto. destruct (Nat.eqb_spec (nth x (m_pos G) 0) v) as [X|X].
        -- unfold back in Ex. lia.
        -- rewrite <- Ex. symmetry. apply ren_renb. auto.
    + split; [apply LP'|]. intros x Hx _ Nx. rewrite PV by auto. destruct (Nat.eqb_spec (nth x (m_pos G) 0) v); [congruence|reflexivity].
Qed.
