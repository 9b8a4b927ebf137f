(* P_Heavy2.v - proofs about removeHeavyEdges and reInsertVertices (heavy_edges.h:79-92, 196-210), part 2: the leaves. *)
From Verif Require Import SpecCut SpecDyn SpecMutable M_Mutable P_Mutable P_Mutable2 P_Mutable3 P_Cut P_LocalSearch P_LocalSearch2 P_AllMincuts P_MutableIO Prop_Mutable P_Dynamic P_Dynamic2 M_StCactus M_Merge M_Recursive P_ContractStd2 P_StCactus9 P_Merge2 P_Merge3 P_Recursive2 P_Leaf P_Recursive9 P_Heavy.

Lemma wt_row (R : list (list half)) u t : wt (adj R) u t <> 0%N -> exists h, slot R u 0 = Some h.
Proof.
  intro H. unfold slot. destruct (nth u R []) as [|h row] eqn:E; [exfalso; apply H; unfold wt; rewrite adj_nth, E; reflexivity|]. exists h. reflexivity.
Qed.

Section Step.
Context (n : nat) (c : N) (Pc : (0 < c)%N) (G : mg) (LV : lv n c G) (N3 : 2 < m_n G).
Let m := m_n G.
Let back := m - 1.

(** two leaves are not neighbours *)
Lemma lone_apart u t u' t' : u < m -> u' < m -> lone c G u t -> lone c G u' t' -> u <> u' -> t' <> u.
Proof.
  intros Hu Hu' (Ht & Nt & L) (Ht' & Nt' & L') Nu ->.
  assert (E : t = u'). { pose proof (L' u Hu) as X. rewrite Nat.eqb_refl in X. rewrite (valid_symm _ (proj1 (lv_valid _ _ _ LV)) u' u Hu' Hu), (L u' Hu') in X. destruct (Nat.eqb_spec u' t); [auto|lia]. } subst t.
  assert (X : (c <= 0)%N); [|lia]. transitivity (gcut G (fun v => (v =? u) || (v =? u'))).
  - apply (lv_low _ _ _ LV). split; [exists u; rewrite Nat.eqb_refl; auto|].
    assert (exists d, d < m_n G /\ d <> u /\ d <> u') as (d & Hd & D1 & D2).
    { destruct (Nat.eq_dec u 0), (Nat.eq_dec u' 0), (Nat.eq_dec u 1), (Nat.eq_dec u' 1); [exists 2|exists 2|exists 2|exists 2|exists 2|exists 2|exists 2|exists 1|exists 2|exists 2|exists 2|exists 1|exists 0|exists 0|exists 0|exists 0]; lia. }
    exists d. split; [auto|]. apply orb_false_iff. split; apply Nat.eqb_neq; auto.
  - unfold gcut, cutw. rewrite bsum_zero; [lia|]. intros a Ha. apply bsum_zero. intros b Hb. destruct (Nat.eqb_spec a u) as [->|Na]; [|destruct (Nat.eqb_spec a u') as [->|Na']; [|reflexivity]]; cbn [orb andb].
    + destruct (Nat.eqb_spec b u); [reflexivity|]. cbn [orb]. rewrite (L b Hb). destruct (b =? u'); reflexivity.
    + rewrite (L' b Hb). destruct (Nat.eqb_spec b u); [reflexivity|]. destruct (negb _); reflexivity.
Qed.

Context (x : nat) (Hx : x < n) (Lx : live G x) (t : nat) (LO : lone c G (nth x (m_pos G) 0) t) (ce : list (nat * list nat)).
Let u := nth x (m_pos G) 0.
Let ec := nth u (m_cont G) [].

Lemma leaf_step : exists G' y, he_leaf (G, ce) x = Some (G', ce ++ [(y, ec)]) /\ lv n c G' /\ m_n G' = m - 1 /\ y < n /\ live G' y /\
  (forall z, z < n -> (live G' z <-> live G z /\ ~ In z ec)) /\ (forall z, z < n -> live G z -> nth z (m_pos G) 0 <> u -> nth z (m_pos G') 0 = renb u back (nth z (m_pos G) 0)) /\
  (forall v w, v < m -> v <> u -> lone c G v w -> lone c G' (renb u back v) (renb u back w)) /\
  forall Y, mincuts_live n c (live G) G Y <-> with_leaf n (live G') y ec (mincuts_live n c (live G') G') Y.
Proof.
  pose proof LO as (Ht & Nt & L). pose proof (lv_valid _ _ _ LV) as V. assert (Hu : u < m) by exact Lx.
  destruct (wt_row (m_rows G) u t) as ([[t0 w0] r0] & Sl). { unfold u. rewrite (L t Ht), Nat.eqb_refl. lia. }
  assert (t0 = t) as ->.
  { destruct (proj1 V u 0 t0 w0 r0 Sl) as (H1 & H2 & _). pose proof (edge_le (m_rows G) u t0 w0 r0 (nth_error_In _ _ Sl)) as X. pose proof (hv_slot 1 _ _ _ _ _ _ (lv_heavy _ _ _ LV) Sl) as Y. fold u in L. rewrite (L t0 H1) in X. destruct (Nat.eqb_spec t0 t); [auto|lia]. }
  destruct (C22_delete_vertex G u V Hu (lv_part _ _ _ LV) (lv_cut _ _ _ LV)) as (G' & E & V1 & V2 & V3 & NG & WG & _ & GR). cbv zeta in *.
  destruct (GR (lv_groups _ _ _ LV)) as [GE PO]. rewrite (lv_lp _ _ _ LV) in PO. clear GR. rewrite NG in WG, PO. fold m in NG, WG, PO.
  destruct (delete_keeps G u G' E (lv_heavy _ _ _ LV)) as (HV & LA & OR & LP & L1 & L2 & CT).
  pose proof (lv_full _ _ _ LV t Ht) as Ft. destruct (nth t (m_cont G) []) as [|y rest] eqn:Ect; [congruence|]. clear Ft.
  assert (Iy : In y (nth t (m_cont G) [])) by (rewrite Ect; left; auto). apply (proj2 (lv_groups _ _ _ LV) t y Ht) in Iy as [Hy Py]. rewrite (lv_lp _ _ _ LV) in Hy.
  assert (Iec : forall z, In z ec <-> (z < n /\ nth z (m_pos G) 0 = u)). { intro z. unfold ec. rewrite (proj2 (lv_groups _ _ _ LV) u z Hu), (lv_lp _ _ _ LV). tauto. }
  assert (PO' : forall z, z < n -> live G z -> nth z (m_pos G) 0 <> u -> nth z (m_pos G') 0 = renb u back (nth z (m_pos G) 0) /\ renb u back (nth z (m_pos G) 0) < m - 1 /\ ren u back (renb u back (nth z (m_pos G) 0)) = nth z (m_pos G) 0).
  { intros z Hz Lz Nz. destruct (renb_rg m u Hu _ Lz Nz) as [B1 B2]. fold m back in B1, B2. split; [|auto]. apply PO; auto. }
  assert (LI : forall z, z < n -> (live G' z <-> live G z /\ ~ In z ec)).
  { intros z Hz. rewrite Iec. unfold live at 1. rewrite NG. split.
    - intro Lz. pose proof (proj1 (PO z _ Hz Lz) eq_refl) as Q. fold (ren u back (nth z (m_pos G') 0)) in Q. destruct (ren_rg m u Hu _ Lz) as [R1 R2]. fold m back in R1, R2. unfold live. rewrite Q. split; [exact R1|]. intros [_ X]. auto.
    - intros [Lz Nz]. destruct (PO' z Hz Lz) as (-> & B & _); auto. }
  assert (WG' : forall a b, a < m - 1 -> b < m - 1 -> wt (adj (m_rows G')) a b = wt (adj (m_rows G)) (ren u back a) (ren u back b)) by exact WG.
  assert (Ly : live G' y). { apply LI; auto. split; [unfold live; rewrite Py; auto|]. rewrite Iec, Py. intros [_ X]. auto. }
  assert (Pty : nth y (m_pos G') 0 = renb u back t). { destruct (PO' y Hy) as (A & _); [unfold live; rewrite Py; auto|rewrite Py; auto|]. rewrite A, Py. reflexivity. }
  destruct (renb_rg m u Hu t Ht Nt) as [Rt1 Rt2]. fold m back in Rt1, Rt2.
  exists G', y. split; [|split; [|split; [auto|split; [auto|split; [auto|split; [auto|split; [|split]]]]]]].
  - unfold he_leaf. cbn [fst snd]. destruct (Nat.ltb_spec 2 (m_n G)); [|lia]. rewrite (nth_error_nth' (m_pos G) 0) by (rewrite (lv_lp _ _ _ LV); auto). fold u. rewrite Sl, Ect, E. reflexivity.
  - constructor; auto.
    + split; [|split]; auto.
    + rewrite LA, NG, (lv_last _ _ _ LV). reflexivity.
    + rewrite OR. apply LV.
    + rewrite LP. apply LV.
    + rewrite L1, NG, (lv_part _ _ _ LV). reflexivity.
    + rewrite L2, NG, (lv_cut _ _ _ LV). reflexivity.
    + intros p Hp. rewrite NG in Hp. rewrite CT. fold m. destruct (Nat.ltb_spec u (m - 1)) as [Lu|Lu].
      * rewrite nth_upd. destruct (_ && _); apply (lv_full _ _ _ LV); unfold m in *; lia.
      * apply (lv_full _ _ _ LV). unfold m in *. lia.
    + apply (leaf_low n c G LV u t Hu LO G' NG WG').
    + unfold m in *. lia.
  - intros z Hz Lz Nz. apply PO'; auto.
  - intros v w Hv Nv Lv. pose proof (lone_apart u t v w Hu Hv LO Lv ltac:(auto)) as Nw. destruct Lv as (Hw & Nwv & Lv). destruct (renb_rg m u Hu v Hv Nv) as [A1 A2]. destruct (renb_rg m u Hu w Hw Nw) as [B1 B2]. fold m back in A1, A2, B1, B2.
    split; [lia|]. split; [intro Q; rewrite Q in B2; congruence|]. intros b Hb. rewrite NG in Hb. destruct (ren_rg m u Hu b Hb) as [R1 R2]. fold m back in R1, R2. rewrite WG', A2, (Lv _ R1) by auto.
    destruct (Nat.eqb_spec (ren u back b) w) as [Q|Q], (Nat.eqb_spec b (renb u back w)) as [Q'|Q']; auto; exfalso; [apply Q'; rewrite <- Q, renb_ren; auto; unfold back; lia|apply Q; rewrite Q'; auto].
  - intro Y. split.
    + intros (S & PS & ES & B). destruct (Bool.bool_dec (S u) (S t)) as [Q|Q].
      * right. split.
        -- exists (fun a => S (ren u back a)). split; [|split].
           ++ rewrite NG. destruct PS as [(a & Ha & Sa) (b & Hb & Sb)]. split.
              ** destruct (Nat.eq_dec a u) as [->|Na]; [exists (renb u back t); rewrite Rt2, <- Q; auto|]. destruct (renb_rg m u Hu a Ha Na) as [A1 A2]. fold m back in A1, A2. exists (renb u back a). rewrite A2. auto.
              ** destruct (Nat.eq_dec b u) as [->|Nb]; [exists (renb u back t); rewrite Rt2, <- Q; auto|]. destruct (renb_rg m u Hu b Hb Nb) as [A1 A2]. fold m back in A1, A2. exists (renb u back b). rewrite A2. auto.
           ++ rewrite <- ES. symmetry. apply (leaf_cut n c G LV u t Hu LO G' NG WG' S Q).
           ++ intros z Hz Lz. apply LI in Lz as [Lz Nz]; auto. assert (Nz' : nth z (m_pos G) 0 <> u) by (intro X; apply Nz, Iec; auto). destruct (PO' z Hz Lz Nz') as (-> & _ & ->). auto.
        -- intros z I. apply Iec in I as [Hz Pz]. rewrite (B z Hz), Pz, Q by (unfold live; rewrite Pz; auto). rewrite (B y Hy), Py by (unfold live; rewrite Py; auto). reflexivity.
      * left. exists (S t). split.
        -- pose proof (leaf_sep n c G LV u t Hu LO G' NG WG' S Q) as X. rewrite ES in X. intros z Hz Lz. pose proof Lz as Lz'. apply LI in Lz as [Lz Nz]; auto. assert (Nz' : nth z (m_pos G) 0 <> u) by (intro Z; apply Nz, Iec; auto).
           destruct (PO' z Hz Lz Nz') as (P1 & P2 & P3). rewrite (B z Hz Lz). destruct (Bool.bool_dec (S (nth z (m_pos G) 0)) (S t)) as [|D]; [auto|exfalso].
           assert (PP : proper (m_n G') (fun a => S (ren u back a))).
           { rewrite NG. destruct (S (nth z (m_pos G) 0)) eqn:S1; destruct (S t) eqn:S2; try congruence.
             - split; [exists (renb u back (nth z (m_pos G) 0)); rewrite P3; auto|exists (renb u back t); rewrite Rt2; auto].
             - split; [exists (renb u back t); rewrite Rt2; auto|exists (renb u back (nth z (m_pos G) 0)); rewrite P3; auto]. }
           pose proof (leaf_low n c G LV u t Hu LO G' NG WG' _ PP) as Z. change (c <= gcut G' (fun a => S (ren u back a)))%N in Z. change (gcut G' (fun a => S (ren u back a)) + c <= c)%N in X. clear - X Z Pc. lia.
        -- intros z I. apply Iec in I as [Hz Pz]. rewrite (B z Hz), Pz by (unfold live; rewrite Pz; auto). clear - Q. destruct (S u), (S t); try reflexivity; exfalso; apply Q; reflexivity.
    + intros [(b & B1 & B2)|((S & PS & ES & B) & Yl)].
      * exists (fun v => if v =? u then negb b else b). assert (X : gcut G (fun v => v =? u) = c).
        { unfold gcut. rewrite cutw_single by auto. unfold wdeg. rewrite <- (bsum_single m (fun _ => c) t Ht). apply bsum_ext. intros v Hv. fold u in L. rewrite (L v Hv). destruct (Nat.eqb_spec v t) as [->|]; [|destruct (_ =? _); reflexivity]. destruct (Nat.eqb_spec u t); [exfalso; unfold u in *; congruence|]. destruct (Nat.eqb_spec t u); [exfalso; unfold u in *; congruence|reflexivity]. }
        assert (Sy : symm (m_n G) (wt (adj (m_rows G)))) by (apply valid_symm; apply V). split; [|split].
        -- destruct b; cbn [negb]; split; [exists t|exists u|exists u|exists t]; (split; [auto|]); try (rewrite Nat.eqb_refl; reflexivity); destruct (Nat.eqb_spec t u); auto; exfalso; unfold u in *; congruence.
        -- rewrite <- X. destruct b; cbn [negb].
           ++ unfold gcut. rewrite <- (cutw_compl (m_n G) _ (fun v => v =? u) Sy). apply cutw_ext. intros v _. destruct (v =? u); reflexivity.
           ++ apply gcut_ext. intros v _. destruct (v =? u); reflexivity.
        -- intros z Hz Lz. destruct (Nat.eqb_spec (nth z (m_pos G) 0) u) as [Q|Q]; [apply B2, Iec; auto|apply B1; auto]. apply LI; auto. split; [auto|]. intro I. apply Iec in I as [_ I]. auto.
      * exists (up G u t S). split; [apply (up_proper G u t Hu G' NG WG' S PS)|]. split; [rewrite (up_cut n c G LV u t Hu LO G' NG WG' S); auto|].
        intros z Hz Lz. unfold up. fold m back. destruct (Nat.eqb_spec (nth z (m_pos G) 0) u) as [Q|Q].
        -- rewrite (Yl z) by (apply Iec; auto). rewrite (B y Hy Ly), Pty. reflexivity.
        -- destruct (PO' z Hz Lz Q) as (P1 & P2 & P3). rewrite (B z Hz), P1; [reflexivity|]. unfold live. rewrite P1, NG. auto.
Qed.
End Step.
