(* P_Recursive4.v - proofs about mergeCactusWithComponent: the graph of a small component is the contraction of everything else. *)
From Verif Require Import SpecCut SpecDyn SpecMutable M_Mutable P_Mutable P_Cut P_LocalSearch P_LocalSearch2 P_AllMincuts P_MutableIO M_StCactus M_Recursive P_StCactus7 P_StCactus8 P_StCactus9 P_ContractStd2 P_Recursive2 P_Recursive3.

Lemma clear_same : forall l A M0, fold_opt (fun M p => set_cont M p []) l A = Some M0 -> m_part M0 = m_part A /\ m_cut M0 = m_cut A.
Proof.
  induction l as [|p l IH]; intros A M0 E; cbn [fold_opt] in E; [injection E as <-; auto|]. destruct (set_cont A p []) as [A1|] eqn:E1; [|discriminate E].
  destruct (IH _ _ E) as [-> ->]. unfold set_cont in E1. destruct (p <? length (m_cont A)); [|discriminate E1]. injection E1 as <-. auto.
Qed.

Section Small.
Context (n : nat) (c : N) (G : mg) (GD : good n c G) (v : list nat) (Lv : length v = m_n G) (cc bs : nat) (Hbs : bs = length (filter (Nat.eqb cc) v)) (Hlt : S bs < m_n G) (Ex : exists u, u < m_n G /\ nth u v 0 <> cc).
Let num := cp_numbers v cc bs 0.
Let h (u : nat) : nat := nth u num 0.
Let es := flat_map (es_of G num bs) (seq 0 (m_n G)).

Lemma h_in u : u < m_n G -> nth u v 0 = cc -> h u < bs.
Proof. intros Hu E. destruct (numbers_ok cc bs v 0) as (_ & A & _). specialize (A u ltac:(lia) E). unfold h, num. lia. Qed.
Lemma h_out u : u < m_n G -> nth u v 0 <> cc -> h u = bs.
Proof. intros Hu E. destruct (numbers_ok cc bs v 0) as (_ & _ & A & _). apply A; auto; lia. Qed.
Lemma h_le u : u < m_n G -> h u < S bs.
Proof. intro Hu. destruct (Nat.eq_dec (nth u v 0) cc) as [E|E]; [pose proof (h_in u Hu E); lia|rewrite h_out; auto]. Qed.
Lemma h_inj u w : u < m_n G -> w < m_n G -> h u = h w -> h u <> bs -> u = w.
Proof.
  intros Hu Hw E N. destruct (numbers_ok cc bs v 0) as (_ & _ & _ & I & _). apply I; try lia; auto.
  - destruct (Nat.eq_dec (nth u v 0) cc); auto. exfalso. apply N, h_out; auto.
  - destruct (Nat.eq_dec (nth w v 0) cc); auto. exfalso. apply N. rewrite E. apply h_out; auto.
Qed.
Lemma h_clu : clustering (m_n G) h (S bs).
Proof.
  split; [apply h_le|]. intros p Hp. destruct (Nat.eq_dec p bs) as [->|].
  - destruct Ex as (u & Hu & Nu). exists u. split; [auto|apply h_out; auto].
  - destruct (numbers_ok cc bs v 0) as (_ & _ & _ & _ & O). destruct (O p ltac:(lia)) as (u & Hu & _ & E). exists u. split; [lia|exact E].
Qed.
Lemma h_merges : merges (m_n G) (fun u => nth u v 0 <> cc) h.
Proof.
  intros u w Hu Hw. split.
  - intro E. destruct (Nat.eq_dec (nth u v 0) cc) as [Q|Q].
    + left. apply h_inj; auto. pose proof (h_in u Hu Q). lia.
    + destruct (Nat.eq_dec (nth w v 0) cc) as [Q'|Q']; [|auto]. pose proof (h_in w Hw Q'). rewrite (h_out u Hu Q) in E. lia.
  - intros [->|[A B]]; [reflexivity|]. rewrite !h_out; auto.
Qed.

Lemma row_tgt u x : In x (nth u (m_rows G) []) -> fst (fst x) < m_n G.
Proof. intro I. destruct x as [[t w] r]. apply In_nth_error in I as (e & I). destruct (gd_valid _ _ _ GD) as [V _]. apply (V u e t w r I). Qed.
Lemma row_nodup u : NoDup (tgts (nth u (m_rows G) [])). Proof. apply (gd_nopar _ _ _ GD). Qed.

Lemma es_spec a b w : In (a, b, w) es -> a < b /\ b < S bs /\ w <> 0%N.
Proof.
  unfold es. intro I. apply in_flat_map in I as (u & Iu & I). apply in_seq in Iu. unfold es_of in I. fold (h u) in I. destruct (Nat.eqb_spec (h u) bs); [destruct I|]. pose proof (h_le u ltac:(lia)).
  apply in_app_or in I as [I|I].
  - apply in_flat_map in I as (x & Ix & I). pose proof (row_tgt u x Ix) as Ht. unfold es_inner in I. fold (h u) (h (fst (fst x))) in I. destruct (Nat.eqb_spec (h (fst (fst x))) bs); [destruct I|]. destruct (Nat.ltb_spec (h u) (h (fst (fst x)))); [|destruct I].
    destruct I as [I|[]]. injection I as <- <- <-. split; [auto|]. split; [apply h_le; auto|]. destruct x as [[t w] r]. apply (gd_nozero _ _ _ GD u t w r Ix).
  - destruct (N.ltb_spec 0 (cp_outer num bs (nth u (m_rows G) []))); [|destruct I]. destruct I as [I|[]]. injection I as <- <- <-. split; [lia|]. split; lia.
Qed.
Lemma es_nodup : NoDup (map ends es).
Proof.
  assert (X : map ends es = flat_map (fun u => map ends (es_of G num bs u)) (seq 0 (m_n G))).
  { unfold es. generalize (seq 0 (m_n G)). induction l as [|u l IH]; [reflexivity|]. cbn [flat_map]. rewrite map_app, IH. reflexivity. }
  assert (Hd : forall u e, In e (map ends (es_of G num bs u)) -> fst e = h u /\ h u <> bs).
  { intros u e I. apply in_map_iff in I as ([[a b] w] & <- & I). cbn [ends fst]. unfold es_of in I. fold (h u) in I. destruct (Nat.eqb_spec (h u) bs); [destruct I|]. split; [|auto]. apply in_app_or in I as [I|I].
    - apply in_flat_map in I as (x & Ix & I). unfold es_inner in I. fold (h u) in I. destruct (_ =? bs); [destruct I|]. destruct (_ <? _); [|destruct I]. destruct I as [I|[]]. injection I as <- _ _. reflexivity.
    - destruct (0 <? _)%N; [|destruct I]. destruct I as [I|[]]. injection I as <- _ _. reflexivity. }
  rewrite X. apply nodup_concat; [apply seq_NoDup| |].
  - intros u Iu. apply in_seq in Iu. unfold es_of. fold (h u). destruct (Nat.eqb_spec (h u) bs); [constructor|]. rewrite map_app.
    assert (Y : map ends (flat_map (es_inner num bs u) (nth u (m_rows G) [])) = flat_map (fun x => map ends (es_inner num bs u x)) (nth u (m_rows G) [])).
    { generalize (nth u (m_rows G) []). induction l as [|x l IH]; [reflexivity|]. cbn [flat_map]. rewrite map_app, IH. reflexivity. }
    rewrite Y. assert (Z : forall x e, In x (nth u (m_rows G) []) -> In e (map ends (es_inner num bs u x)) -> snd e = h (fst (fst x)) /\ snd e <> bs).
    { intros x e Ix I. unfold es_inner in I. fold (h u) (h (fst (fst x))) in I. destruct (Nat.eqb_spec (h (fst (fst x))) bs); [destruct I|]. destruct (_ <? _); [|destruct I]. destruct I as [<-|[]]. cbn. auto. }
    assert (D : NoDup (flat_map (fun x => map ends (es_inner num bs u x)) (nth u (m_rows G) []))).
    { apply nodup_concat.
      - eapply NoDup_map_inv. apply (row_nodup u).
      - intros x Ix. unfold es_inner. destruct (_ =? bs); [constructor|]. destruct (_ <? _); [|constructor]. constructor; [intros []|constructor].
      - intros x y e Ix Iy E1 E2. destruct (Z x e Ix E1) as [A1 A2], (Z y e Iy E2) as [B1 B2]. apply (tgts_inj (nth u (m_rows G) [])); auto; [apply row_nodup|].
        apply h_inj; [eapply row_tgt; eauto|eapply row_tgt; eauto|congruence|congruence]. }
    destruct (0 <? _)%N; [|cbn [map]; rewrite app_nil_r; exact D]. cbn [map ends fst]. apply (Permutation_NoDup (l := (nth u num 0, bs) :: flat_map (fun x => map ends (es_inner num bs u x)) (nth u (m_rows G) []))); [apply Permutation_cons_append|].
    constructor; [|exact D]. intro I. apply in_flat_map in I as (x & Ix & I). destruct (Z x _ Ix I) as [_ Q]. apply Q. reflexivity.
  - intros a b e Ia Ib E1 E2. apply in_seq in Ia, Ib. destruct (Hd a e E1) as [A1 A2], (Hd b e E2) as [B1 B2]. apply h_inj; try lia; congruence.
Qed.
Lemma es_sum a b : a < b -> b < S bs -> sumN (fun e => if Nat.eqb (fst (fst e)) a && Nat.eqb (snd (fst e)) b then snd e else 0%N) es =
  bsum (m_n G) (fun u => bsum (m_n G) (fun z => if (h u =? a) && (h z =? b) then wt (adj (m_rows G)) u z else 0%N)).
Proof.
  intros Hab Hb. unfold es. rewrite sumN_flat_map. unfold bsum at 1. apply sumN_ext. intros u Iu. apply in_seq in Iu.
  transitivity (if h u =? a then sumN (fun x : half => if h (fst (fst x)) =? b then snd (fst x) else 0%N) (nth u (m_rows G) []) else 0%N).
  - unfold es_of. fold (h u). destruct (Nat.eqb_spec (h u) bs) as [Q|Q].
    + destruct (Nat.eqb_spec (h u) a); [lia|reflexivity].
    + rewrite sumN_app, sumN_flat_map. destruct (Nat.eq_dec b bs) as [->|Nb].
      * assert (Z : sumN (fun x => sumN (fun e : nat * nat * N => if Nat.eqb (fst (fst e)) a && Nat.eqb (snd (fst e)) bs then snd e else 0%N) (es_inner num bs u x)) (nth u (m_rows G) []) = 0%N).
        { apply sumN_zero. intros x _. unfold es_inner. fold (h (fst (fst x))). destruct (Nat.eqb_spec (h (fst (fst x))) bs) as [|N]; [reflexivity|]. destruct (_ <? _); [|reflexivity]. cbn [sumN fst snd]. destruct (Nat.eqb_spec (h (fst (fst x))) bs); [contradiction|]. rewrite andb_false_r. reflexivity. }
        rewrite Z. pose proof (outer_sum num bs (nth u (m_rows G) [])) as OS. destruct (N.ltb_spec 0 (cp_outer num bs (nth u (m_rows G) []))) as [P|P].
        -- cbn [sumN fst snd]. fold (h u). rewrite Nat.eqb_refl, andb_true_r. destruct (h u =? a); [|reflexivity]. rewrite OS. cbv beta. unfold h. lia.
        -- cbn [sumN]. destruct (h u =? a); [|reflexivity]. unfold h. rewrite <- OS. lia.
      * assert (Z : sumN (fun e : nat * nat * N => if Nat.eqb (fst (fst e)) a && Nat.eqb (snd (fst e)) b then snd e else 0%N) (if (0 <? cp_outer num bs (nth u (m_rows G) []))%N then [(h u, bs, cp_outer num bs (nth u (m_rows G) []))] else []) = 0%N).
        { destruct (_ <? _)%N; [|reflexivity]. cbn [sumN fst snd]. destruct (Nat.eqb_spec bs b); [congruence|]. rewrite andb_false_r. reflexivity. }
        rewrite Z, N.add_0_r. destruct (Nat.eqb_spec (h u) a) as [Ea|Na].
        -- apply sumN_ext. intros x _. unfold es_inner. fold (h u) (h (fst (fst x))). destruct (Nat.eqb_spec (h (fst (fst x))) bs) as [E|N].
           { destruct (Nat.eqb_spec (h (fst (fst x))) b); [lia|reflexivity]. }
           destruct (Nat.ltb_spec (h u) (h (fst (fst x)))).
           { cbn [sumN fst snd]. rewrite Ea, Nat.eqb_refl. cbn [andb]. destruct (_ =? b); lia. }
           destruct (Nat.eqb_spec (h (fst (fst x))) b); [lia|reflexivity].
        -- apply sumN_zero. intros x _. unfold es_inner. fold (h u). destruct (_ =? bs); [reflexivity|]. destruct (_ <? _); [|reflexivity]. cbn [sumN fst snd]. destruct (Nat.eqb_spec (h u) a); [contradiction|]. reflexivity.
  - destruct (h u =? a); [|symmetry; apply bsum_zero; reflexivity]. cbn [andb].
    transitivity (bsum (m_n G) (fun z => if nth z num 0 =? b then wt (adj (m_rows G)) u z else 0%N)); [|reflexivity]. rewrite <- (row_class num G (gd_valid _ _ _ GD)) by lia. reflexivity.
Qed.

Lemma small_ok : exists H, cp_small G v cc bs = Some H /\ part n c G (fun u => nth u v 0) cc H h.
Proof.
  pose proof (pos_surj n c G GD) as Sn. unfold cp_small. fold num. set (A := new_empty_node (set_orig (start_construction (S bs)) (m_orig G))).
  destruct (start_cut (S bs)) as (V0 & N0 & _).
  assert (EA : A = mk_mg (repeat [] (S bs)) (repeat 0%N (S bs)) (repeat 0 (S bs)) (repeat false (S bs)) (seq 0 (S bs) ++ repeat 0 (m_orig G - length (seq 0 (S bs)))) (map (fun i => [i]) (seq 0 (S bs))) 1 0 0 (m_orig G)).
  { unfold A, new_empty_node, set_orig, m_n. cbn [m_rows m_last start_construction]. rewrite repeat_length. destruct (Nat.eqb_spec 0 (S bs)); [lia|]. reflexivity. }
  assert (LA : length (m_cont A) = S bs) by (rewrite EA; cbn [m_cont]; rewrite map_length, seq_length; reflexivity).
  destruct (clear_ok (seq 0 (S bs)) A) as (M0 & E0 & S0 & P0 & C0 & Z0). { intros p Ip. apply in_seq in Ip. lia. }
  assert (Sh : m_part M0 = m_part A /\ m_cut M0 = m_cut A).
  { eapply clear_same. exact E0. }
  rewrite E0. rewrite <- Hbs. pose proof S0 as (R0 & D0 & NE0 & L0 & O0).
  destruct (iter_empty bs M0) as (l & EI & _). { unfold m_n. rewrite R0, L0, EA. cbn [m_rows m_last]. rewrite repeat_length. lia. }
  rewrite EI. set (M1 := mk_mg _ _ _ _ _ _ l _ _ _).
  rewrite (fold_flat _ _ _ (place_pl G num)). set (L := flat_map (fun u => map (fun x => (nth u num 0, x)) (nth u (m_cont G) [])) (seq 0 (m_n G))).
  assert (InL : forall p x, In (p, x) L <-> x < n /\ h (nth x (m_pos G) 0) = p).
  { intros p x. unfold L. rewrite in_flat_map. destruct (gd_groups _ _ _ GD) as [_ Gr]. rewrite (gd_lp _ _ _ GD) in Gr. split.
    - intros (u & Iu & I). apply in_seq in Iu. apply in_map_iff in I as (y & E & I). injection E as <- ->. apply (Gr u x ltac:(lia)) in I as [Hx <-]. auto.
    - intros [Hx <-]. exists (nth x (m_pos G) 0). pose proof (gd_range _ _ _ GD x Hx). split; [apply in_seq; lia|]. apply in_map_iff. exists x. split; [reflexivity|]. apply Gr; auto. }
  assert (LP1 : length (m_pos M1) = n). { cbn [M1 m_pos]. rewrite P0, EA. cbn [m_pos]. rewrite app_length, repeat_length, seq_length, (gd_orig _ _ _ GD). lia. }
  assert (LC1 : length (m_cont M1) = S bs) by (cbn [M1 m_cont]; congruence).
  destruct (place_ok L M1) as (M2 & E2 & S2 & Pa2 & Cu2 & LC2 & LP2 & Cn2 & Ps2 & _).
  { intros p x I. apply InL in I as [Hx <-]. rewrite LC1, LP1. split; [apply h_le; apply (gd_range _ _ _ GD); auto|auto]. }
  { intros p q x I J. apply InL in I as [_ <-], J as [_ <-]. reflexivity. }
  rewrite E2. pose proof S2 as (R2 & D2 & NE2 & L2 & O2). cbn [M1 m_rows m_deg m_ne m_last m_orig] in R2, D2, NE2, L2, O2.
  assert (R2' : m_rows M2 = repeat [] (S bs)) by (rewrite R2, R0, EA; reflexivity).
  assert (V2 : mvalid M2). { destruct V0 as (A1 & A2 & A3). unfold mvalid. rewrite R2', D2, NE2, D0, NE0, EA. cbn [m_deg m_ne]. exact (conj A1 (conj A2 A3)). }
  assert (N2 : m_n M2 = S bs) by (unfold m_n; rewrite R2'; apply repeat_length).
  rewrite (fold_flat _ _ _ (edges_es G num bs)). fold es.
  destruct (edges_fold es M2 V2) as (M3 & E3 & V3 & N3 & P3 & C3 & O3 & Pa3 & Cu3 & NZ3 & W3 & T3).
  { intros a b w I. rewrite N2. apply es_spec; auto. } { intros u t w r I. rewrite R2', nth_repeat in I. destruct I. }
  rewrite E3. cbn [option_map]. exists (m_finish M3). split; [reflexivity|].
  assert (Co : contraction_of (m_n G) (wt (adj (m_rows G))) h (S bs) (wt (adj (m_rows M3)))).
  { assert (Sy3 : symm (m_n M3) (wt (adj (m_rows M3)))) by (destruct V3 as [VR _]; apply valid_symm; exact VR).
    assert (SyG : symm (m_n G) (wt (adj (m_rows G)))) by (destruct (gd_valid _ _ _ GD) as [VR _]; apply valid_symm; exact VR).
    assert (K : forall p q, p < q -> q < S bs -> wt (adj (m_rows M3)) p q = bsum (m_n G) (fun u => bsum (m_n G) (fun z => if (h u =? p) && (h z =? q) then wt (adj (m_rows G)) u z else 0%N))).
    { intros p q Hp Hq. rewrite W3 by lia. rewrite (wt_sum (m_rows M2)), R2', nth_repeat. cbn [sumN]. rewrite N.add_0_l. apply es_sum; auto. }
    intros p q Hp Hq Npq. destruct (Nat.lt_ge_cases p q); [apply K; auto|]. rewrite Sy3 by lia. rewrite K by lia. rewrite bsum_swap. apply bsum_ext. intros u Hu. apply bsum_ext. intros z Hz. rewrite (SyG u z) by auto. rewrite andb_comm. reflexivity. }
  assert (NH : m_n (m_finish M3) = S bs) by (change (m_n M3 = S bs); congruence).
  assert (PH : forall x, x < n -> nth x (m_pos (m_finish M3)) 0 = h (nth x (m_pos G) 0)). { intros x Hx. cbn [m_finish m_pos]. rewrite P3. apply Ps2. apply InL. auto. }
  assert (CH : forall p x, p < S bs -> In x (nth p (m_cont M3) []) <-> x < n /\ h (nth x (m_pos G) 0) = p).
  { intros p x Hp. rewrite C3, Cn2. assert (Z : nth p (m_cont M1) [] = []).
    { cbn [M1 m_cont]. rewrite Z0. destruct (existsb (Nat.eqb p) (seq 0 (S bs))) eqn:Q; [reflexivity|]. exfalso. assert (X : existsb (Nat.eqb p) (seq 0 (S bs)) = true) by (apply existsb_exists; exists p; split; [apply in_seq; lia|apply Nat.eqb_refl]). congruence. }
    rewrite Z. cbn [app]. rewrite in_map_iff. split.
    - intros ([q y] & E & I). cbn [snd] in E. subst y. apply filter_In in I as [I Q]. cbn [fst] in Q. apply Nat.eqb_eq in Q. subst q. apply InL. exact I.
    - intro I. exists (p, x). split; [reflexivity|]. apply filter_In. split; [apply InL; auto|apply Nat.eqb_refl]. }
  constructor; rewrite ?NH; auto; [|apply h_clu|apply h_merges].
  constructor; rewrite ?NH; auto.
  - change (m_orig M3 = n). rewrite O3, O2, O0, EA. cbn [m_orig]. apply (gd_orig _ _ _ GD).
  - change (length (m_pos M3) = n). rewrite P3. congruence.
  - intros x Hx. rewrite PH by auto. apply h_le. apply (gd_range _ _ _ GD). auto.
  - split; [change (S bs <= length (m_cont M3)); rewrite C3, LC2, LC1; auto|]. intros p x Hp. change (m_cont (m_finish M3)) with (m_cont M3). rewrite CH by auto.
    change (length (m_pos (m_finish M3))) with (length (m_pos M3)). rewrite P3, LP2, LP1. split; intros [Hx E]; (split; [auto|]); [rewrite PH; auto|rewrite PH in E; auto].
  - change (m_part (m_finish M3)) with (m_part M3). change (m_cut (m_finish M3)) with (m_cut M3). change (m_cont (m_finish M3)) with (m_cont M3). rewrite Pa3, Pa2, Cu3, Cu2, C3, LC2, LC1. cbn [M1 m_part m_cut]. destruct Sh as [-> ->]. rewrite EA. cbn [m_part m_cut]. rewrite !repeat_length. auto.
  - intros p Hp. destruct h_clu as [_ On]. destruct (On p Hp) as (u & Hu & Eu). destruct (member n c G GD u Hu) as (x & Hx & Exx). intro Q.
    assert (I : In x (nth p (m_cont M3) [])) by (apply CH; auto; split; [auto|congruence]). change (m_cont (m_finish M3)) with (m_cont M3) in Q. rewrite Q in I. destruct I.
  - intro u. change (NoDup (tgts (nth u (m_rows M3) []))). rewrite T3, R2', nth_repeat. cbn [tgts map app]. apply near_nodup; [|apply es_nodup].
    intros a b I. apply in_map_iff in I as ([[a' b'] w] & E & I). cbn in E. injection E as <- <-. apply (es_spec a' b' w I).
  - intros f Pf. change (m_rows (m_finish M3)) with (m_rows M3). rewrite (contraction_cut (m_n G) (wt (adj (m_rows G))) h (S bs) (wt (adj (m_rows M3))) f); [|apply h_clu|exact Co].
    apply (gd_low _ _ _ GD). eapply proper_pull; [apply h_clu|exact Pf].
  - lia.
Qed.
End Small.
