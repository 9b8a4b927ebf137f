(* P_Mutable2.v - proofs about mutable_graph: merging steps, renaming the last vertex, deleteVertex. *)
From Verif Require Import SpecCut P_Cut P_Mutable M_Mutable.

Definition lin (f : nat -> N -> N) : Prop := forall t a b, f t (a + b)%N = (f t a + f t b)%N.
Lemma lin_fw x : lin (fw x).
Proof. intros t a b. unfold fw. destruct (t =? x); lia. Qed.
Lemma lin_fd : lin fd.
Proof. intros t a b. reflexivity. Qed.

(** the edge (n, k) is merged into the parallel edge (first, ed2) *)
Lemma hit_ok D R first n k t w r ed2 rev w2 :
  linked D R -> slot R n k = Some (t, w, r) -> D n k = false -> n <> first ->
  slot R first ed2 = Some (t, w2, rev) -> D first ed2 = false -> (forall b, D t b = false) ->
  exists R1 R2 R', add_wgt R first ed2 w = Some R1 /\ add_wgt R1 t rev w = Some R2 /\ internal_delete R2 t r = Some R' /\
    rl R2 t = rl R t /\ length R' = length R /\ (forall a, rl R' a = if a =? t then rl R a - 1 else rl R a) /\
    (forall a b, a <> t -> (a = first -> b <> ed2) -> slot R' a b = option_map (moved D t (rl R t - 1) r a b) (slot R a b)) /\
    slot R' first ed2 = Some (t, (w2 + w)%N, if rev =? rl R t - 1 then r else rev) /\
    linked (dadd D n k) R' /\
    (forall f u, lin f -> (ls (dadd D n k) R' f u + pairf n t w f u = ls D R f u + pairf first t w f u)%N) /\
    (forall u, (ls (dadd D n k) R' fc u + pairf n t w fc u = ls D R fc u)%N).
Proof.
  intros L Sn Dn Nf Sf Df Dt. destruct (L n k t w r Sn Dn) as [Ht [Nt [_ St]]].
  destruct (L first ed2 t w2 rev Sf Df) as [_ [Ntf [_ Stf]]].
  destruct (slot_lt _ _ _ _ Sf) as [Hf Hed]. destruct (slot_lt _ _ _ _ Stf) as [_ Hrev].
  destruct (setw_ok D R first ed2 t w2 rev (w2 + w) L Sf Df) as (N1 & RL1 & SL1 & L1 & C1).
  set (R2 := setw R first ed2 t rev (w2 + w)%N) in *.
  assert (Sn2 : slot R2 n k = Some (t, w, r)).
  { rewrite SL1. destruct (Nat.eqb_spec n first); [congruence|]. destruct (Nat.eqb_spec n t); [congruence|]. auto. }
  destruct (drop_ok D R2 n k t w r L1 Sn2 Dn Dt) as (R' & E & N' & RL' & A & B & LK & C).
  exists (rset R first ed2 (t, (w2 + w)%N, rev)), R2, R'. split; [unfold add_wgt; rewrite Sf; reflexivity|]. split.
  { unfold add_wgt. rewrite slot_rset by auto. destruct (Nat.eqb_spec t first); [congruence|]. cbn [andb]. rewrite Stf. reflexivity. }
  split; [auto|]. split; [auto|]. split; [congruence|]. split; [intro a; rewrite RL', RL1; reflexivity|].
  split; [|split; [|split; [auto|split]]].
  - intros a b Na Nb. rewrite A by auto. rewrite SL1, RL1.
    destruct (Nat.eqb_spec a first) as [->|]; cbn [andb].
    + destruct (Nat.eqb_spec b ed2); [exfalso; apply Nb; auto|]. destruct (Nat.eqb_spec first t); [congruence|]. reflexivity.
    + destruct (Nat.eqb_spec a t); [congruence|]. reflexivity.
  - rewrite A by auto. rewrite SL1, RL1, !Nat.eqb_refl. cbn. unfold moved. cbn. rewrite Df, Nat.eqb_refl. cbn. reflexivity.
  - intros f u Lf. specialize (C f u). specialize (C1 f u). unfold pairf in *. rewrite !Lf in C1.
    destruct (u =? first), (u =? t), (u =? n); lia.
  - intro u. specialize (C fc u). specialize (C1 fc u). unfold pairf, fc in *. lia.
Qed.

(** the edge (n, k) is handed over to first *)
Lemma redirect_ok D R first n k t w r :
  linked D R -> slot R n k = Some (t, w, r) -> D n k = false -> n <> first -> first < length R -> t <> first ->
  D first (rl R first) = false ->
  exists R1 R2, set_rev R t r (rl R first) = Some R1 /\ set_tgt R1 t r first = Some R2 /\
    let R' := push R2 first (t, w, r) in
    length R' = length R /\ (forall a, rl R' a = if a =? first then S (rl R a) else rl R a) /\
    (forall a b, slot R' a b = if (a =? t) && (b =? r) then Some (first, w, rl R first)
                               else if (a =? first) && (b =? rl R first) then Some (t, w, r) else slot R a b) /\
    linked (dadd D n k) R' /\
    (forall f u, (ls (dadd D n k) R' f u + pairf n t w f u = ls D R f u + pairf first t w f u)%N).
Proof.
  intros L Sn Dn Nf Hf Ntf Dfl. destruct (L n k t w r Sn Dn) as [Ht [Nt [Dr St]]]. destruct (slot_lt _ _ _ _ St) as [_ Hr].
  destruct (slot_lt _ _ _ _ Sn) as [_ Hk].
  set (R1 := rset R t r (n, w, rl R first)). set (R2 := rset R1 t r (first, w, rl R first)).
  assert (S1 : slot R1 t r = Some (n, w, rl R first)) by (unfold R1; rewrite slot_rset, !Nat.eqb_refl by auto; reflexivity).
  assert (S2 : forall a b, slot R2 a b = if (a =? t) && (b =? r) then Some (first, w, rl R first) else slot R a b).
  { intros a b. unfold R2. rewrite slot_rset by (unfold R1; rewrite rl_rset; auto). unfold R1. rewrite slot_rset by auto.
    destruct ((a =? t) && (b =? r)); reflexivity. }
  assert (L2 : forall a, rl R2 a = rl R a) by (intro a; unfold R2, R1; rewrite !rl_rset; reflexivity).
  assert (N2 : length R2 = length R) by (unfold R2, R1; rewrite !length_rset; reflexivity).
  exists R1, R2. split; [unfold set_rev; rewrite St; reflexivity|]. split; [unfold set_tgt; rewrite S1; reflexivity|]. cbn zeta.
  set (R' := push R2 first (t, w, r)).
  assert (SL : forall a b, slot R' a b = if (a =? t) && (b =? r) then Some (first, w, rl R first)
                               else if (a =? first) && (b =? rl R first) then Some (t, w, r) else slot R a b).
  { intros a b. unfold R'. rewrite slot_push by lia. rewrite L2, S2. destruct (Nat.eqb_spec a t) as [->|]; cbn [andb]; [|reflexivity].
    destruct (Nat.eqb_spec t first); [congruence|]. reflexivity. }
  assert (RL : forall a, rl R' a = if a =? first then S (rl R a) else rl R a).
  { intro a. unfold R'. rewrite rl_push by lia. rewrite !L2. destruct (Nat.eqb_spec a first) as [->|]; reflexivity. }
  assert (NN : length R' = length R) by (unfold R'; rewrite length_push; auto).
  assert (Dfl' : dadd D n k first (rl R first) = false).
  { unfold dadd. rewrite Dfl. destruct (Nat.eqb_spec first n); [congruence|]. reflexivity. }
  split; [auto|]. split; [auto|]. split; [auto|]. split.
  - intros a b t' w' r' Sa Da. rewrite NN. rewrite SL in Sa. destruct ((a =? t) && (b =? r)) eqn:E1.
    + apply andb_true_iff in E1. destruct E1 as [E1 E2]. apply Nat.eqb_eq in E1, E2. subst a b. injection Sa as <- <- <-.
      split; [auto|]. split; [auto|]. split; [auto|]. rewrite SL. destruct (Nat.eqb_spec first t); [congruence|]. cbn.
      rewrite !Nat.eqb_refl. reflexivity.
    + destruct ((a =? first) && (b =? rl R first)) eqn:E3.
      * apply andb_true_iff in E3. destruct E3 as [E3 E4]. apply Nat.eqb_eq in E3, E4. subst a b. injection Sa as <- <- <-.
        split; [auto|]. split; [auto|]. split.
        -- unfold dadd. rewrite Dr. destruct (Nat.eqb_spec t n); [congruence|]. reflexivity.
        -- rewrite SL, !Nat.eqb_refl. reflexivity.
      * unfold dadd in Da. apply orb_false_iff in Da. destruct Da as [Da E5].
        destruct (L a b t' w' r' Sa Da) as [A [B [C E]]]. destruct (slot_lt _ _ _ _ E) as [_ Hr'].
        split; [auto|]. split; [auto|]. split.
        -- unfold dadd. rewrite C. destruct (Nat.eqb_spec t' n) as [->|]; [|reflexivity]. destruct (Nat.eqb_spec r' k) as [->|]; [|reflexivity].
           rewrite Sn in E. injection E as -> -> ->. rewrite !Nat.eqb_refl in E1. discriminate.
        -- rewrite SL. destruct ((t' =? t) && (r' =? r)) eqn:E6.
           ++ apply andb_true_iff in E6. destruct E6 as [E6 E7]. apply Nat.eqb_eq in E6, E7. subst t' r'. rewrite St in E.
              injection E as -> -> ->. rewrite !Nat.eqb_refl in E5. discriminate.
           ++ destruct (Nat.eqb_spec t' first) as [->|]; [|auto]. destruct (Nat.eqb_spec r' (rl R first)); [lia|auto].
  - intros f u.
    assert (P1 : ls (dadd D n k) R' f u = (ls (dadd D n k) R2 f u + if Nat.eqb u first then f t w else 0)%N).
    { unfold R'. rewrite ls_push; [reflexivity|lia|rewrite L2; auto]. }
    rewrite P1. unfold pairf. destruct (Nat.eqb_spec u t) as [->|Nut].
    + destruct (Nat.eqb_spec t first); [congruence|]. destruct (Nat.eqb_spec t n); [congruence|]. rewrite !N.add_0_l, N.add_0_r.
      pose proof (ls_point D (dadd D n k) R R2 f t r (L2 t) Hr) as P.
      assert (Dr' : dadd D n k t r = false) by (unfold dadd; rewrite Dr; destruct (Nat.eqb_spec t n); [congruence|reflexivity]).
      rewrite (val_live D R f t r n w k St Dr) in P.
      rewrite (val_live (dadd D n k) R2 f t r first w (rl R first)) in P; [|rewrite S2, !Nat.eqb_refl; reflexivity|auto].
      apply P. intros i _ Ni. unfold val. rewrite S2. destruct (Nat.eqb_spec i r); [congruence|]. rewrite andb_false_r.
      unfold dadd. destruct (Nat.eqb_spec t n); [congruence|]. rewrite orb_false_r. reflexivity.
    + destruct (Nat.eqb_spec u n) as [->|Nun].
      * destruct (Nat.eqb_spec n first); [congruence|]. rewrite !N.add_0_r.
        pose proof (ls_point D (dadd D n k) R R2 f n k (L2 n) Hk) as P.
        rewrite (val_live D R f n k t w r Sn Dn) in P. rewrite (val_dead (dadd D n k) R2 f n k) in P
          by (unfold dadd; rewrite !Nat.eqb_refl, orb_true_r; reflexivity).
        rewrite N.add_0_r in P. apply P. intros i _ Ni. unfold val. rewrite S2. destruct (Nat.eqb_spec n t); [congruence|]. cbn [andb].
        unfold dadd. destruct (Nat.eqb_spec i k); [congruence|]. rewrite andb_false_r, orb_false_r. reflexivity.
      * assert (P2 : ls (dadd D n k) R2 f u = ls D R f u).
        { apply ls_ext; [auto|]. intros i _. unfold val. rewrite S2. destruct (Nat.eqb_spec u t); [congruence|]. cbn [andb].
          unfold dadd. destruct (Nat.eqb_spec u n); [congruence|]. rewrite orb_false_r. reflexivity. }
        rewrite P2. lia.
Qed.

(** * the remapping loop *)
Definition hits (R : list (list half)) (x a b : nat) (j : nat) : bool :=
  match slot R x j with Some (t, _, r) => (t =? a) && (r =? b) | None => false end.

Lemma remap_ok x new cnt : forall R k,
  (forall j, k <= j < k + cnt -> exists t w r, slot R x j = Some (t, w, r) /\ t <> x /\ r < rl R t) ->
  exists R', remap cnt R x new k = Some R' /\ length R' = length R /\ (forall a, rl R' a = rl R a) /\
    forall a b, slot R' a b = option_map (fun h => if existsb (hits R x a b) (seq k cnt) then (new, snd (fst h), snd h) else h) (slot R a b).
Proof.
  induction cnt as [|cnt IH]; intros R k H.
  - exists R. split; [reflexivity|]. split; [reflexivity|]. split; [reflexivity|]. intros a b. cbn. destruct (slot R a b); reflexivity.
  - destruct (H k ltac:(lia)) as (t & w & r & Sk & Nt & Hr). cbn [remap]. rewrite Sk. unfold set_tgt.
    destruct (slot_some R t r Hr) as (t2 & w2 & r2 & St). rewrite St. set (R1 := rset R t r (new, w2, r2)).
    assert (S1 : forall a b, slot R1 a b = if (a =? t) && (b =? r) then Some (new, w2, r2) else slot R a b).
    { intros a b. unfold R1. apply slot_rset. auto. }
    destruct (IH R1 (S k)) as (R' & E & N' & RL & SL).
    { intros j Hj. destruct (H j ltac:(lia)) as (tj & wj & rj & Sj & Nj & Hj'). exists tj, wj, rj. split; [|split; [auto|unfold R1; rewrite rl_rset; auto]].
      rewrite S1. destruct (Nat.eqb_spec x t); [congruence|]. auto. }
    exists R'. split; [auto|]. split; [rewrite N'; apply length_rset|]. split; [intro a; rewrite RL; apply rl_rset|].
    intros a b. rewrite SL, S1. cbn [seq existsb].
    assert (EQ : existsb (hits R1 x a b) (seq (S k) cnt) = existsb (hits R x a b) (seq (S k) cnt)).
    { clear - Nt S1. induction (seq (S k) cnt) as [|j l IHl]; [reflexivity|]. cbn. rewrite IHl. f_equal. unfold hits. rewrite S1.
      destruct (Nat.eqb_spec x t); [congruence|]. reflexivity. }
    rewrite EQ. unfold hits at 2. rewrite Sk, (Nat.eqb_sym t a), (Nat.eqb_sym r b).
    destruct ((a =? t) && (b =? r)) eqn:E1; cbn [orb].
    + apply andb_true_iff in E1. destruct E1 as [E1 E2]. apply Nat.eqb_eq in E1, E2. subst a b. rewrite St. cbn.
      destruct (existsb (hits R x t r) (seq (S k) cnt)); reflexivity.
    + reflexivity.
Qed.

(** * the last vertex takes the index of a vertex whose row is dead *)
Definition ren (v back a : nat) : nat := if a =? v then back else a.
Definition renb (v back a : nat) : nat := if a =? back then v else a.
Definition retgt (D : dead) (v back a b : nat) (h : half) : half :=
  if negb (D a b) && (fst (fst h) =? back) then (v, snd (fst h), snd h) else h.
Definition dren (D : dead) (v back : nat) : dead := fun a b => D (ren v back a) b.

Lemma live_not_dead_row D R v a b t w r : linked D R -> (forall c, D v c = true) -> slot R a b = Some (t, w, r) -> D a b = false -> t <> v.
Proof. intros L Dv S Da ->. destruct (L a b v w r S Da) as [_ [_ [E _]]]. rewrite Dv in E. discriminate. Qed.

Lemma rename_ok D R v R' : linked D R -> v < length R -> (forall b, D v b = true) ->
  let back := length R - 1 in
  (v < back -> forall b, D back b = false) ->
  length R' = length R - 1 ->
  (forall a b, a < length R - 1 -> slot R' a b = option_map (retgt D v back (ren v back a) b) (slot R (ren v back a) b)) ->
  (forall a, a < length R - 1 -> rl R' a = rl R (ren v back a)) ->
  linked (dren D v back) R' /\
  (forall f u, u < length R - 1 -> ls (dren D v back) R' f u = ls D R (fun t w => f (renb v back t) w) (ren v back u)) /\
  bsum (length R') (ls (dren D v back) R' fc) = bsum (length R) (ls D R fc).
Proof.
  intros L Hv Dv back Db N' SL RL.
  assert (VAL : forall f u e, u < length R - 1 -> val (dren D v back) R' f u e = val D R (fun t w => f (renb v back t) w) (ren v back u) e).
  { intros f u e Hu. unfold val. rewrite SL by auto. unfold dren. destruct (slot R (ren v back u) e) as [[[t w] r]|] eqn:Q; [|reflexivity].
    cbn. unfold retgt. cbn. destruct (D (ren v back u) e) eqn:De; cbn [negb andb].
    - reflexivity.
    - unfold renb. destruct (Nat.eqb_spec t back); reflexivity. }
  assert (LS : forall f u, u < length R - 1 -> ls (dren D v back) R' f u = ls D R (fun t w => f (renb v back t) w) (ren v back u)).
  { intros f u Hu. unfold ls. rewrite RL by auto. apply bsum_ext. intros e _. apply VAL. auto. }
  split; [|split; [auto|]].
  - intros a b t w r Sa Da. rewrite N'. assert (Ha : a < length R - 1) by (rewrite <- N'; apply (slot_lt _ _ _ _ Sa)).
    rewrite SL in Sa by auto. unfold dren in Da. set (a0 := ren v back a) in *.
    destruct (slot R a0 b) as [[[t0 w0] r0]|] eqn:Q; [|discriminate]. cbn in Sa. unfold retgt in Sa. cbn in Sa. rewrite Da in Sa. cbn in Sa.
    destruct (L a0 b t0 w0 r0 Q Da) as [Ht0 [Nt0 [Dt0 St0]]].
    pose proof (live_not_dead_row D R v a0 b t0 w0 r0 L Dv Q Da) as Ntv.
    assert (E : t = renb v back t0 /\ w = w0 /\ r = r0).
    { unfold renb. destruct (Nat.eqb_spec t0 back); injection Sa as <- <- <-; auto. }
    destruct E as [-> [-> ->]]. clear Sa.
    assert (Hren : renb v back t0 < length R - 1 /\ ren v back (renb v back t0) = t0).
    { unfold renb, ren. destruct (Nat.eqb_spec t0 back) as [->|].
      - rewrite Nat.eqb_refl. split; [|reflexivity]. destruct (Nat.eq_dec v back); [|unfold back in *; lia]. subst v. congruence.
      - destruct (Nat.eqb_spec t0 v); [congruence|]. split; [unfold back in *; lia|reflexivity]. }
    destruct Hren as [Hr1 Hr2]. split; [auto|]. split.
    { intro X. apply Nt0. rewrite <- Hr2, X. reflexivity. }
    split; [unfold dren; rewrite Hr2; auto|]. rewrite SL by auto. rewrite Hr2, St0. cbn. unfold retgt. cbn. rewrite Dt0. cbn.
    unfold a0, ren. destruct (Nat.eqb_spec a v) as [->|].
    + rewrite Nat.eqb_refl. reflexivity.
    + destruct (Nat.eqb_spec a back); [unfold back in *; lia|reflexivity].
  - rewrite N'. assert (LV : ls D R fc v = 0%N).
    { unfold ls. apply bsum_zero. intros i _. apply val_dead. auto. }
    transitivity (bsum (length R - 1) (fun u => ls D R fc (ren v back u))).
    { apply bsum_ext. intros u Hu. rewrite LS by auto. reflexivity. }
    replace (length R) with (S back) at 2 by (unfold back; lia). rewrite bsum_S. change (length R - 1) with back.
    destruct (Nat.eq_dec v back) as [->|Nv].
    + rewrite LV, N.add_0_r. apply bsum_ext. intros u Hu. unfold ren. destruct (Nat.eqb_spec u back); [lia|reflexivity].
    + pose proof (bsum_point back (ls D R fc) (fun u => ls D R fc (ren v back u)) v ltac:(unfold back in *; lia)) as P.
      assert (X : ren v back v = back) by (unfold ren; rewrite Nat.eqb_refl; reflexivity). cbn beta in P. rewrite X, LV in P. rewrite <- P; [lia|].
      intros i _ Ni. unfold ren. destruct (Nat.eqb_spec i v); [congruence|reflexivity].
Qed.

Lemma nth_removelast {A} (l : list A) i d : i < length l - 1 -> nth i (removelast l) d = nth i l d.
Proof.
  intro H. assert (E := nth_error_removelast l i). rewrite (nth_error_nth_lt (removelast l) i d) in E by (rewrite length_removelast; auto).
  destruct (Nat.eqb_spec (S i) (length l)); [lia|]. rewrite (nth_error_nth_lt l i d) in E by lia. congruence.
Qed.

Lemma slot_removelast R a b : a < length R - 1 -> slot (removelast R) a b = slot R a b.
Proof. intro H. unfold slot. rewrite nth_removelast by auto. reflexivity. Qed.
Lemma rl_removelast R a : a < length R - 1 -> rl (removelast R) a = rl R a.
Proof. intro H. unfold rl. rewrite nth_removelast by auto. reflexivity. Qed.

(** hits of the row of the last vertex are exactly the live half edges to it *)
Lemma hits_back D R back a b t w r : linked D R -> (forall c, D back c = false) -> slot R a b = Some (t, w, r) ->
  existsb (hits R back a b) (seq 0 (rl R back)) = negb (D a b) && (t =? back).
Proof.
  intros L Db S. destruct (negb (D a b) && (t =? back)) eqn:E.
  - apply andb_true_iff in E. destruct E as [E1 E2]. apply negb_true_iff in E1. apply Nat.eqb_eq in E2. subst t.
    destruct (L a b back w r S E1) as [_ [_ [_ X]]]. apply existsb_exists. exists r. split.
    + apply in_seq. pose proof (slot_lt _ _ _ _ X). lia.
    + unfold hits. rewrite X, !Nat.eqb_refl. reflexivity.
  - apply existsb_false. intros j _. unfold hits. destruct (slot R back j) as [[[t' w'] r']|] eqn:Q; [|reflexivity].
    destruct (Nat.eqb_spec t' a) as [->|]; [|reflexivity]. destruct (Nat.eqb_spec r' b) as [->|]; [|reflexivity].
    destruct (L back j a w' b Q (Db j)) as [_ [_ [X Y]]]. rewrite S in Y. injection Y as -> -> ->. rewrite X, Nat.eqb_refl in E. discriminate.
Qed.

(** first form: remap, then move (deleteVertex) *)
Lemma remap_move D R v : linked D R -> let back := length R - 1 in v < back -> (forall b, D v b = true) -> (forall b, D back b = false) ->
  exists R1, remap (rl R back) R back v 0 = Some R1 /\
    let R' := move_last R1 v [] in
    length R' = length R - 1 /\
    (forall a b, a < length R - 1 -> slot R' a b = option_map (retgt D v back (ren v back a) b) (slot R (ren v back a) b)) /\
    (forall a, a < length R - 1 -> rl R' a = rl R (ren v back a)).
Proof.
  intros L back Hv Dv Db. destruct (remap_ok back v (rl R back) R 0) as (R1 & E & N1 & RL1 & SL1).
  { intros j Hj. destruct (slot_some R back j ltac:(lia)) as (t & w & r & S). exists t, w, r.
    destruct (L back j t w r S (Db j)) as [A [B [C X]]]. split; [auto|]. split; [auto|]. apply (slot_lt _ _ _ _ X). }
  exists R1. split; [auto|]. cbn zeta. unfold move_last. rewrite N1. fold back.
  assert (NN : length (upd R1 v (nth back R1 [])) = length R) by (rewrite upd_length; auto).
  assert (SL : forall a b, slot R1 a b = option_map (retgt D v back a b) (slot R a b)).
  { intros a b. rewrite SL1. destruct (slot R a b) as [[[t w] r]|] eqn:Q; [|reflexivity]. cbn. rewrite (hits_back D R back a b t w r L Db Q). reflexivity. }
  split; [rewrite length_removelast; lia|]. split.
  - intros a b Ha. rewrite slot_removelast by lia. rewrite slot_upd by (rewrite N1; unfold back in Hv; lia). fold (slot R1 back b).
    unfold ren. destruct (Nat.eqb_spec a v) as [->|]; apply SL.
  - intros a Ha. rewrite rl_removelast by lia. rewrite rl_upd by (rewrite N1; unfold back in Hv; lia). fold (rl R1 back).
    unfold ren. destruct (Nat.eqb_spec a v) as [->|]; apply RL1.
Qed.

(** second form: move, then remap (contractEdge, contractVertexSet); R0 agrees with the moved rows below back *)
Lemma move_remap D R v R0 : linked D R -> let back := length R - 1 in v < back -> (forall b, D v b = true) -> (forall b, D back b = false) ->
  length R - 1 <= length R0 ->
  (forall a b, a < length R - 1 -> slot R0 a b = slot R (ren v back a) b) ->
  (forall a, a < length R - 1 -> rl R0 a = rl R (ren v back a)) ->
  exists R', remap (rl R0 v) R0 v v 0 = Some R' /\ length R' = length R0 /\
    (forall a b, a < length R - 1 -> slot R' a b = option_map (retgt D v back (ren v back a) b) (slot R (ren v back a) b)) /\
    (forall a, a < length R - 1 -> rl R' a = rl R (ren v back a)).
Proof.
  intros L back Hv Dv Db N0 S0 RL0.
  assert (Sv : forall j, slot R0 v j = slot R back j).
  { intro j. rewrite S0 by (unfold back in Hv; lia). unfold ren. rewrite Nat.eqb_refl. reflexivity. }
  assert (Lv : rl R0 v = rl R back) by (rewrite RL0 by (unfold back in Hv; lia); unfold ren; rewrite Nat.eqb_refl; reflexivity).
  assert (TG : forall j t w r, slot R back j = Some (t, w, r) -> t < length R - 1 /\ t <> v /\ slot R t r = Some (back, w, j)).
  { intros j t w r S. destruct (L back j t w r S (Db j)) as [A [B [C X]]]. split; [unfold back in *; lia|]. split; [|auto].
    intros ->. rewrite Dv in C. discriminate. }
  destruct (remap_ok v v (rl R0 v) R0 0) as (R' & E & N' & RL' & SL').
  { intros j Hj. destruct (slot_some R0 v j ltac:(lia)) as (t & w & r & S). exists t, w, r. split; [auto|].
    rewrite Sv in S. destruct (TG j t w r S) as [A [B C]]. split; [auto|]. rewrite RL0 by auto. unfold ren.
    destruct (Nat.eqb_spec t v); [congruence|]. apply (slot_lt _ _ _ _ C). }
  exists R'. split; [auto|]. split; [auto|]. split; [|intros a Ha; rewrite RL'; auto].
  intros a b Ha. rewrite SL', S0 by auto. set (a0 := ren v back a). destruct (slot R a0 b) as [[[t w] r]|] eqn:Q; [|reflexivity].
  cbn. f_equal. unfold retgt. cbn.
  assert (EH : existsb (hits R0 v a b) (seq 0 (rl R0 v)) = existsb (hits R back a0 b) (seq 0 (rl R back))).
  { rewrite Lv. clear - Sv TG Ha Hv. induction (seq 0 (rl R back)) as [|j l IH]; [reflexivity|]. cbn. rewrite IH. f_equal.
    unfold hits. rewrite Sv. destruct (slot R back j) as [[[t w] r]|] eqn:Q; [|reflexivity]. destruct (TG j t w r Q) as [A [B C]].
    f_equal. unfold a0, ren. destruct (Nat.eqb_spec a v) as [->|]; [|reflexivity].
    destruct (Nat.eqb_spec t v); [congruence|]. destruct (Nat.eqb_spec t back); [unfold back in *; lia|reflexivity]. }
  rewrite EH, (hits_back D R back a0 b t w r L Db Q). reflexivity.
Qed.
