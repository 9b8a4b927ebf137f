(* P_Merge2.v - proofs about mergeGraphs, part 2: places and members, and the glued graph as a whole. *)
From Verif Require Import SpecCut SpecDyn SpecMutable M_Mutable P_Mutable P_Cut P_LocalSearch P_LocalSearch2 P_AllMincuts P_MutableIO M_StCactus M_Merge P_StCactus P_StCactus3 P_StCactus5 P_StCactus7 P_StCactus8 P_StCactus9 P_Merge.

Lemma set_all_ok p : forall xs M, (forall x, In x xs -> x < length (m_pos M)) -> exists M', set_all_pos xs p M = Some M' /\ same_core M M' /\ m_cont M' = m_cont M /\ m_part M' = m_part M /\ m_cut M' = m_cut M /\ length (m_pos M') = length (m_pos M) /\
  forall x, x < length (m_pos M) -> nth x (m_pos M') 0 = if existsb (Nat.eqb x) xs then p else nth x (m_pos M) 0.
Proof.
  unfold set_all_pos. induction xs as [|y xs IH]; intros M B; cbn [fold_opt existsb].
  - exists M. split; [reflexivity|]. split; [apply core_refl|]. do 4 (split; [auto|]). auto.
  - assert (Hy : y < length (m_pos M)) by (apply B; left; auto). unfold set_pos at 1. destruct (Nat.ltb_spec y (length (m_pos M))); [|lia].
    set (M1 := mk_mg (m_rows M) (m_deg M) (m_part M) (m_cut M) (upd (m_pos M) y p) (m_cont M) (m_last M) (m_ne M) (m_pc M) (m_orig M)).
    destruct (IH M1) as (M' & E' & S' & C' & Q1 & Q2 & L' & P'). { intros x I. cbn. rewrite upd_length. apply B. right. auto. }
    exists M'. split; [exact E'|]. split; [eapply core_trans; [|exact S']; repeat split|]. split; [exact C'|]. split; [exact Q1|]. split; [exact Q2|]. cbn [M1 m_pos] in *. rewrite upd_length in *. split; [auto|].
    intros x Hx. rewrite P' by auto. rewrite nth_upd. destruct (Nat.ltb_spec y (length (m_pos M))); [|lia]. rewrite andb_true_r. destruct (existsb (Nat.eqb x) xs); [rewrite orb_true_r; reflexivity|]. rewrite orb_false_r. reflexivity.
Qed.
Lemma keep_ok v1 : forall xs M, (forall x, In x xs -> x < length (m_pos M)) -> v1 < length (m_cont M) -> exists M', fold_opt (mg_keep v1) xs M = Some M' /\ same_core M M' /\ m_part M' = m_part M /\ m_cut M' = m_cut M /\ length (m_pos M') = length (m_pos M) /\ length (m_cont M') = length (m_cont M) /\
  (forall x, nth x (m_pos M') 0 = nth x (m_pos M) 0) /\ forall p, nth p (m_cont M') [] = if p =? v1 then nth v1 (m_cont M) [] ++ filter (fun x => nth x (m_pos M) 0 =? v1) xs else nth p (m_cont M) [].
Proof.
  induction xs as [|y xs IH]; intros M B Hv; cbn [fold_opt filter].
  - exists M. split; [reflexivity|]. split; [apply core_refl|]. do 5 (split; [auto|]). intro p. destruct (Nat.eqb_spec p v1) as [->|]; [rewrite app_nil_r|]; reflexivity.
  - assert (Hy : y < length (m_pos M)) by (apply B; left; auto). unfold mg_keep at 1. rewrite (nth_error_nth' (m_pos M) 0 Hy). destruct (Nat.eqb_spec (nth y (m_pos M) 0) v1) as [Ey|Ny].
    + unfold set_pos at 1. destruct (Nat.ltb_spec y (length (m_pos M))); [|lia]. unfold add_cont, set_cont at 1. cbn [m_cont m_rows m_deg m_part m_cut m_pos m_last m_ne m_pc m_orig]. destruct (Nat.ltb_spec v1 (length (m_cont M))); [|lia].
      set (M1 := mk_mg _ _ _ _ _ _ _ _ _ _).
      assert (PP : forall x, nth x (m_pos M1) 0 = nth x (m_pos M) 0). { intro x. cbn. rewrite nth_upd. destruct (Nat.eqb_spec x y) as [->|]; [|reflexivity]. cbn [andb]. destruct (y <? length (m_pos M)); auto. }
      destruct (IH M1) as (M' & E' & S' & Q1 & Q2 & L' & LC' & P' & C'). { intros x I. cbn. rewrite upd_length. apply B. right. auto. } { cbn. rewrite upd_length. auto. }
      exists M'. split; [exact E'|]. split; [eapply core_trans; [|exact S']; repeat split|]. split; [exact Q1|]. split; [exact Q2|]. split; [rewrite L'; cbn; apply upd_length|]. split; [rewrite LC'; cbn; apply upd_length|].
      split; [intro x; rewrite P'; apply PP|]. intro p. rewrite C'. cbn [M1 m_cont]. rewrite nth_upd_eq by auto. rewrite (filter_ext (fun x => nth x (m_pos M1) 0 =? v1) (fun x => nth x (m_pos M) 0 =? v1)) by (intro x; rewrite PP; reflexivity).
      destruct (Nat.eqb_spec p v1) as [->|Np]; [rewrite <- app_assoc; reflexivity|]. rewrite nth_upd_neq by auto. reflexivity.
    + apply IH; auto. intros x I. apply B. right. auto.
Qed.

Section Places.
Context (G1 G2 : mg) (v1 v2 n : nat) (H1 : mvalid G1) (H2 : mvalid G2) (Hv1 : v1 < m_n G1) (Hv2 : v2 < m_n G2)
  (La1 : m_last G1 = m_n G1) (Lp1 : length (m_pos G1) = n) (Lp2 : length (m_pos G2) = n) (Lc1 : length (m_cont G1) = m_n G1) (Gr2 : groups_exact (m_n G2) (m_cont G2) (m_pos G2)).
Notation n1 := (m_n G1). Notation n2 := (m_n G2). Notation idn := (mg_id n1 v1 v2).
Notation pT := (fun x => nth x (m_pos G1) 0). Notation pN := (fun x => nth x (m_pos G2) 0).

Record placed (m : nat) (M : mg) : Prop := {
  pl_valid : mvalid M; pl_n : m_n M = n1 + m - (if v2 <? m then 1 else 0); pl_last : m_last M = m_n M; pl_orig : m_orig M = m_orig G1;
  pl_cut : forall f, gcut M f = gcut G1 f; pl_rows : forall x, nth x (m_rows M) [] = nth x (m_rows G1) []; pl_shape : forall c, shape c G1 -> shape c M;
  pl_lc : length (m_cont M) = m_n M; pl_lp : length (m_pos M) = n;
  pl_pos : forall x, x < n -> nth x (m_pos M) 0 = if negb (pN x =? v2) && (pN x <? m) then idn (pN x) else pT x;
  pl_old : forall p, p < n1 -> nth p (m_cont M) [] = if p =? v1 then (if v2 <? m then filter (fun x => pT x =? v1) (nth v2 (m_cont G2) []) else []) else nth p (m_cont G1) [];
  pl_new : forall i, i < m -> i <> v2 -> nth (idn i) (m_cont M) [] = nth i (m_cont G2) [] }.

Lemma core_gcut M M' f : same_core M M' -> gcut M' f = gcut M f.
Proof. intros (A & _). unfold gcut, m_n. rewrite A. reflexivity. Qed.
Lemma core_shape M M' c : same_core M M' -> m_part M' = m_part M -> m_cut M' = m_cut M -> length (m_cont M') = length (m_cont M) -> shape c M -> shape c M'.
Proof. intros (A & _) B C D (E1 & E2 & E3 & E4). unfold shape, m_n in *. rewrite A, B, C, D. auto. Qed.
Lemma core_n M M' : same_core M M' -> m_n M' = m_n M.
Proof. intros (A & _). unfold m_n. rewrite A. reflexivity. Qed.

Lemma members i x : i < n2 -> In x (nth i (m_cont G2) []) <-> x < n /\ pN x = i.
Proof. intro Hi. destruct Gr2 as [_ Gr]. rewrite (Gr i x Hi), Lp2. tauto. Qed.

Lemma nodes_ok M0 : set_cont G1 v1 [] = Some M0 -> forall m, m <= n2 -> exists M, fold_opt (mg_node v1 G2 v2) (seq 0 m) M0 = Some M /\ placed m M.
Proof.
  intro E0. destruct (set_cont_ok G1 v1 [] (eq_ind_r (fun k => v1 < k) Hv1 Lc1)) as (M0' & E0' & S0 & P0 & C0). rewrite E0 in E0'. injection E0' as <-.
  assert (PC : m_part M0 = m_part G1 /\ m_cut M0 = m_cut G1). { unfold set_cont in E0. destruct (v1 <? length (m_cont G1)); [|discriminate E0]. injection E0 as <-. auto. } destruct PC as [PC1 PC2].
  induction m as [|m IH]; intro Hm.
  - exists M0. split; [reflexivity|]. constructor.
    + apply (core_valid _ _ S0 H1).
    + rewrite (core_n _ _ S0). destruct (Nat.ltb_spec v2 0); lia.
    + destruct S0 as (A & _ & _ & B & _). unfold m_n in *. rewrite A, B. auto.
    + apply S0.
    + intro f. apply (core_gcut _ _ f S0).
    + intro x. destruct S0 as (A & _). rewrite A. reflexivity.
    + intros c Sc. eapply core_shape; eauto. rewrite C0, upd_length. reflexivity.
    + rewrite C0, upd_length, (core_n _ _ S0). auto.
    + rewrite P0. auto.
    + intros x Hx. rewrite P0. change (pN x <? 0) with false. rewrite andb_false_r. reflexivity.
    + intros p Hp. change (v2 <? 0) with false. rewrite C0, nth_upd. destruct (Nat.ltb_spec v1 (length (m_cont G1))); [|lia]. rewrite andb_true_r. reflexivity.
    + intros i Hi. lia.
  - destruct IH as (M & E & [A1 A2 A3 A4 A5 A6 A7 A8 A9 A10 A11 A12]); [lia|]. rewrite seq_S, foldo_app, E. cbn [fold_opt plus]. unfold mg_node. destruct (Nat.eqb_spec m v2) as [Em|Nm].
    + subst m. destruct (keep_ok v1 (nth v2 (m_cont G2) []) M) as (M' & E' & S' & Q1 & Q2 & LP' & LC' & P' & C'). { intros x I. apply members in I; [|auto]. rewrite A9. apply I. } { rewrite A8, A2. rewrite Nat.ltb_irrefl; lia. }
      rewrite E'. exists M'. split; [reflexivity|]. assert (N0 : (v2 <? v2) = false) by (apply Nat.ltb_irrefl). assert (N1 : (v2 <? S v2) = true) by (apply Nat.ltb_lt; lia). rewrite N0 in *. constructor.
      * apply (core_valid _ _ S' A1).
      * rewrite (core_n _ _ S'), A2, N1. lia.
      * destruct S' as (B1 & _ & _ & B2 & _). unfold m_n in *. rewrite B1, B2. auto.
      * destruct S' as (_ & _ & _ & _ & B). congruence.
      * intro f. rewrite (core_gcut _ _ f S'). auto.
      * intro x. destruct S' as (B & _). rewrite B. auto.
      * intros c Sc. eapply core_shape; eauto.
      * rewrite LC', (core_n _ _ S'). auto.
      * rewrite LP'. auto.
      * intros x Hx. rewrite P', A10 by auto. cbv beta in *. destruct (Nat.eqb_spec (nth x (m_pos G2) 0) v2) as [->|Nx]; [reflexivity|]. cbn [negb andb]. destruct (Nat.ltb_spec (nth x (m_pos G2) 0) v2), (Nat.ltb_spec (nth x (m_pos G2) 0) (S v2)); auto; lia.
      * intros p Hp. rewrite C', N1. destruct (Nat.eqb_spec p v1) as [->|Np].
        -- rewrite A11 by auto. rewrite Nat.eqb_refl. cbn [app]. apply filter_ext_in. intros x I. apply members in I; [|auto]. destruct I as [Ix Iy]. cbv beta in Iy. rewrite A10 by auto. rewrite Iy, Nat.eqb_refl. reflexivity.
        -- rewrite A11 by auto. destruct (Nat.eqb_spec p v1); [contradiction|reflexivity].
      * intros i Hi Ni. rewrite C'. pose proof (id_new G1 G2 v1 v2 Hv1 Hv2 i Ni). destruct (Nat.eqb_spec (idn i) v1); [lia|]. apply A12; lia.
    + destruct (empty_any M A1 A3) as (B1 & B2 & B3 & B4 & B5 & B6 & B7). set (Me := new_empty_node M) in *.
      destruct (set_all_ok (m_last M) (nth m (m_cont G2) []) Me) as (Ms & Es & Ss & Cs & Q1 & Q2 & Ls & Ps). { intros x I. apply members in I; [|lia]. rewrite B4, A9. apply I. }
      rewrite Es. destruct (set_cont_ok Ms (m_last M) (nth m (m_cont G2) [])) as (M' & E' & S' & P' & C'). { rewrite Cs, B5, app_length. cbn. rewrite A8, A3. lia. }
      rewrite E'. assert (PC : m_part M' = m_part Ms /\ m_cut M' = m_cut Ms). { unfold set_cont in E'. destruct (_ <? length (m_cont Ms)); [|discriminate E']. injection E' as <-. auto. } destruct PC as [PC3 PC4].
      assert (SC : same_core Me M') by (eapply core_trans; eauto).
      assert (Id : m_last M = idn m). { rewrite A3, A2. unfold mg_id. destruct (Nat.eqb_spec m v2); [contradiction|]. destruct (v2 <? m); lia. }
      assert (LC' : length (m_cont M') = S (m_n M)). { rewrite C', upd_length, Cs, B5, app_length. cbn. lia. }
      exists M'. split; [reflexivity|]. constructor.
      * apply (core_valid _ _ SC B1).
      * rewrite (core_n _ _ SC), B2, A2. destruct (Nat.ltb_spec v2 m), (Nat.ltb_spec v2 (S m)); lia.
      * destruct SC as (X & _ & _ & Y & _). unfold m_n in *. rewrite X, Y. auto.
      * destruct SC as (_ & _ & _ & _ & X). congruence.
      * intro f. rewrite (core_gcut _ _ f SC), B7. auto.
      * intro x. destruct SC as (X & _). rewrite X. unfold Me, new_empty_node. rewrite A3, Nat.eqb_refl. cbn [m_rows]. destruct (Nat.lt_ge_cases x (length (m_rows M))) as [L|L]; [rewrite app_nth1 by auto; auto|].
        rewrite <- A6, (nth_overflow (m_rows M)) by auto. rewrite app_nth2 by auto. destruct (x - length (m_rows M)) as [|[|k]]; reflexivity.
      * intros c Sc. apply (core_shape Me M' c SC); [congruence|congruence|rewrite LC', B5, app_length; cbn; lia|]. apply empty_shape. auto.
      * rewrite LC', (core_n _ _ SC), B2. reflexivity.
      * rewrite P', Ls, B4. auto.
      * intros x Hx. rewrite P', Ps by (rewrite B4, A9; auto). rewrite B4, A10 by auto. cbv beta.
        assert (EX : existsb (Nat.eqb x) (nth m (m_cont G2) []) = (nth x (m_pos G2) 0 =? m)).
        { apply eq_true_iff_eq. rewrite existsb_exists, Nat.eqb_eq. split.
          - intros (y & I & Q). apply Nat.eqb_eq in Q. subst y. apply members in I; [|lia]. apply I.
          - intro Q. exists x. split; [apply members; [lia|split; auto]|apply Nat.eqb_refl]. }
        rewrite EX. destruct (Nat.eqb_spec (nth x (m_pos G2) 0) m) as [Q|Q].
        -- rewrite Q. destruct (Nat.eqb_spec m v2); [contradiction|]. destruct (Nat.ltb_spec m (S m)); [|lia]. cbn [negb andb]. exact Id.
        -- destruct (Nat.ltb_spec (nth x (m_pos G2) 0) m), (Nat.ltb_spec (nth x (m_pos G2) 0) (S m)); auto; lia.
      * intros p Hp. rewrite C', nth_upd_neq by (rewrite A3, A2; destruct (v2 <? m) eqn:Q; [apply Nat.ltb_lt in Q|]; lia). rewrite Cs, B5, app_nth1 by (rewrite A8, A2; destruct (v2 <? m) eqn:Q; [apply Nat.ltb_lt in Q|]; lia).
        rewrite A11 by auto. destruct (Nat.ltb_spec v2 m), (Nat.ltb_spec v2 (S m)); auto; lia.
      * intros i Hi Ni. rewrite C', Id. destruct (Nat.eq_dec i m) as [->|Nim].
        -- apply nth_upd_eq. rewrite Cs, B5, app_length. cbn. rewrite A8, <- A3, Id. lia.
        -- assert (Lt : idn i < idn m). { apply Nat.ltb_lt. rewrite (id_mono G1 G2 v1 v2 Hv1 Hv2) by auto. apply Nat.ltb_lt. lia. } rewrite nth_upd_neq by lia. rewrite Cs, B5, app_nth1 by (rewrite A8, <- A3, Id; lia). apply A12; lia.
Qed.

(** the glued graph *)
Record glued (M : mg) : Prop := {
  gl_valid : mvalid M; gl_n : m_n M = n1 + (n2 - 1); gl_last : m_last M = m_n M; gl_orig : m_orig M = m_orig G1;
  gl_cut : forall X, gcut M X = (gcut G1 X + gcut G2 (fun a => X (idn a)))%N;
  gl_shape : forall c, shape c G1 -> shape c G2 -> shape c M;
  gl_nopar : no_parallel (m_rows G1) -> no_parallel (m_rows G2) -> no_parallel (m_rows M);
  gl_tgts : forall x, tgts (nth x (m_rows M) []) = tgts (nth x (m_rows G1) []) ++ new_tgts G1 G2 v1 v2 x;
  gl_lc : length (m_cont M) = m_n M; gl_lp : length (m_pos M) = n;
  gl_pos : forall x, x < n -> pN x < n2 -> nth x (m_pos M) 0 = if pN x =? v2 then pT x else idn (pN x);
  gl_old : forall p, p < n1 -> nth p (m_cont M) [] = if p =? v1 then filter (fun x => pT x =? v1) (nth v2 (m_cont G2) []) else nth p (m_cont G1) [];
  gl_new : forall i, i < n2 -> i <> v2 -> nth (idn i) (m_cont M) [] = nth i (m_cont G2) [] }.

Lemma glue_ok : exists M, glue G1 v1 G2 v2 = Some M /\ glued M.
Proof.
  unfold glue. destruct (set_cont_ok G1 v1 [] (eq_ind_r (fun k => v1 < k) Hv1 Lc1)) as (M0 & E0 & _). rewrite E0. destruct (nodes_ok M0 E0 n2 (le_n _)) as (M1 & E1 & [A1 A2 A3 A4 A5 A6 A7 A8 A9 A10 A11 A12]). rewrite E1.
  assert (T2 : (v2 <? n2) = true) by (apply Nat.ltb_lt; auto). rewrite T2 in *.
  assert (Ef : fold_opt (mg_edges n1 v1 G2 v2) (seq 0 n2) M1 = fold_opt ne3 (map (new3 G1 v1 v2) (filter (keep3 v2) (all_halves G2))) M1).
  { unfold mg_edges. rewrite (fold_nest (mg_edge n1 v1 v2) (fun k => nth k (m_rows G2) [])). apply (glue_fold G1 v1 v2). }
  rewrite Ef. destruct (edges3 (map (new3 G1 v1 v2) (filter (keep3 v2) (all_halves G2))) M1 A1) as (M & E & V & N & La & P & C & O & Gc & Tg & Sh).
  { intros e I _. apply in_map_iff in I. destruct I as (p & <- & I). apply filter_In in I. destruct I as [I _]. apply (halves_in G1 G2 v1 v2 H2 Hv1 Hv2) in I. destruct I as (B1 & B2 & _). unfold new3. cbn [fst snd]. rewrite A2. pose proof (id_lt G1 G2 v1 v2 Hv1 Hv2 _ B2). lia. }
  exists M. split; [exact E|]. constructor.
  - exact V.
  - rewrite N, A2. lia.
  - congruence.
  - congruence.
  - intro X. rewrite Gc, A5. f_equal. apply (halves_cut G1 G2 v1 v2 H2 Hv1 Hv2).
  - intros c S1 S2. apply Sh; [auto|]. intros e I. apply in_map_iff in I. destruct I as (p & <- & I). apply filter_In in I. destruct I as [I _]. apply (halves_in G1 G2 v1 v2 H2 Hv1 Hv2) in I. destruct I as (_ & _ & I). destruct p as [a [[t w] r]]. cbn in *. destruct S2 as (_ & _ & _ & S2). eapply S2; eauto.
  - intros NP1 NP2. apply (glue_nopar G1 G2 v1 v2 H1 H2 Hv1 Hv2 (m_rows M) NP1 NP2). intro x. rewrite Tg, A6. reflexivity.
  - intro x. rewrite Tg, A6. reflexivity.
  - congruence.
  - congruence.
  - intros x Hx Hn. rewrite P, A10 by auto. cbv beta in *. destruct (Nat.ltb_spec (nth x (m_pos G2) 0) n2); [|lia]. rewrite andb_true_r. destruct (_ =? v2); reflexivity.
  - intros p Hp. rewrite C. apply A11; auto.
  - intros i Hi Ni. rewrite C. apply A12; auto.
Qed.
End Places.
