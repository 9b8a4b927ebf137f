(* P_Heavy4.v - proofs about removeHeavyEdges, part 4: the scan (heavy_edges.h:34-66) and the contraction of heavy edges (68-77). *)
From Verif Require P_Hier.
From Verif Require Import SpecCut SpecDyn SpecMutable M_Mutable P_Mutable P_Mutable2 P_Mutable3 P_Mutable7 P_Cut P_LocalSearch P_LocalSearch2 P_AllMincuts P_MutableIO Prop_Mutable P_Dynamic P_Dynamic2 M_StCactus M_Merge M_Recursive P_ContractStd2 P_ContractSet2 P_StCactus9 P_Merge2 P_Merge3 P_Recursive2 P_Recursive5 P_Leaf P_Recursive9 P_Heavy P_Heavy2 P_Heavy3.

Section Scan.
Context (n : nat) (c : N) (G : mg) (GD : good n c G).
Definition fo (v : nat) : nat := nth 0 (nth v (m_cont G) []) 0.
Lemma fo_pos v : v < m_n G -> fo v < n /\ nth (fo v) (m_pos G) 0 = v.
Proof.
  intro Hv. pose proof (gd_full _ _ _ GD v Hv) as F. unfold fo. destruct (nth v (m_cont G) []) as [|x l] eqn:E; [congruence|]. cbn [nth].
  assert (I : In x (nth v (m_cont G) [])) by (rewrite E; left; auto). apply (proj2 (gd_groups _ _ _ GD) v x Hv) in I. rewrite (gd_lp _ _ _ GD) in I. exact I.
Qed.
(** x and y are the first members of the ends of an edge heavier than c *)
Definition joined (x y : nat) : Prop := exists v t w r, In (t, w, r) (nth v (m_rows G) []) /\ (c < w)%N /\ ((x = fo v /\ y = fo t) \/ (x = fo t /\ y = fo v)).
Definition entries (cm : list (nat * list nat)) : Prop := forall k l, In (k, l) cm -> l <> [] /\ forall y, In y l -> joined k y.
Definition is_leaf (v : nat) : bool := match nth v (m_rows G) [] with [(_, w, _)] => (w =? c)%N | _ => false end.

Lemma nonempty v : v < m_n G -> m_empty G v = false.
Proof. intro Hv. unfold m_empty. pose proof (gd_full _ _ _ GD v Hv). destruct (nth v (m_cont G) []); congruence. Qed.
Lemma he_add_ok lo hi : joined lo hi -> forall cm, entries cm -> entries (he_add lo hi cm).
Proof.
  intros J. induction cm as [|[a l] cm IH]; intros E k l0 I; cbn [he_add] in I.
  - destruct I as [I|[]]. injection I as <- <-. split; [discriminate|]. intros y [<-|[]]. auto.
  - destruct (Nat.eqb_spec a lo) as [->|Na].
    + destruct I as [I|I]; [|apply E; right; auto]. injection I as <- <-. split; [destruct l; discriminate|]. intros y I. apply in_app_iff in I as [I|[<-|[]]]; [|auto]. apply (proj2 (E lo l (or_introl eq_refl)) y I).
    + destruct I as [I|I]; [apply E; left; auto|]. apply IH; auto. intros k' l' I'. apply E. right. auto.
Qed.
Lemma edge_fold v : forall row b, (forall h, In h row -> In h (nth v (m_rows G) [])) -> v < m_n G -> entries (fst b) ->
  entries (fst (fold_left (he_edge c G v) row b)) /\
  (length (nth v (m_rows G) []) <> 1 -> snd (fold_left (he_edge c G v) row b) = snd b).
Proof.
  induction row as [|[[t w] r] row IH]; intros b Sub Hv E; cbn [fold_left]; [auto|]. assert (I : In (t, w, r) (nth v (m_rows G) [])) by (apply Sub; left; auto).
  pose proof I as I0. apply In_nth_error in I as (e & Sl). destruct (proj1 (gd_valid _ _ _ GD) v e t w r Sl) as (Ht & _).
  set (b1 := he_edge c G v b (t, w, r)).
  assert (E1 : entries (fst b1)).
  { unfold b1, he_edge. rewrite (nonempty t Ht). cbn [fst]. destruct (N.ltb_spec c w) as [Lt|]; [|auto]. apply he_add_ok; [|auto]. fold (fo v) (fo t). exists v, t, w, r. split; [auto|]. split; [auto|]. destruct (Nat.le_ge_cases (fo v) (fo t)); [left|right]; split; lia. }
  destruct (IH b1 (fun h Ih => Sub h (or_intror Ih)) Hv E1) as [A B]. split; [auto|]. intro L. rewrite (B L). unfold b1, he_edge. rewrite (nonempty t Ht). cbn [snd]. apply Nat.eqb_neq in L. rewrite L, andb_false_r. reflexivity.
Qed.
Lemma scan_fold : forall l b, (forall v, In v l -> v < m_n G) -> entries (fst b) ->
  let r := fold_left (fun b n => if m_empty G n then b else fold_left (he_edge c G n) (nth n (m_rows G) []) b) l b in
  entries (fst r) /\ snd r = snd b ++ map fo (filter is_leaf l).
Proof.
  induction l as [|v l IH]; intros b Hl E; cbn [fold_left]; [cbn; rewrite app_nil_r; auto|]. assert (Hv : v < m_n G) by (apply Hl; left; auto).
  rewrite (nonempty v Hv). destruct (edge_fold v (nth v (m_rows G) []) b (fun h I => I) Hv E) as [A B].
  set (b1 := fold_left (he_edge c G v) (nth v (m_rows G) []) b) in *. destruct (IH b1 (fun x I => Hl x (or_intror I)) A) as [C D]. cbv zeta in *. split; [auto|]. rewrite D.
  assert (X : snd b1 = snd b ++ (if is_leaf v then [fo v] else [])).
  { unfold b1, is_leaf. destruct (nth v (m_rows G) []) as [|[[t w] r] [|h2 row]] eqn:Er; [cbn; rewrite app_nil_r; auto| |].
    - cbn [fold_left he_edge]. unfold he_edge. destruct (proj1 (gd_valid _ _ _ GD) v 0 t w r) as (Ht & _); [unfold slot; rewrite Er; reflexivity|]. rewrite (nonempty t Ht), Er. cbn [snd length Nat.eqb]. rewrite andb_true_r. fold (fo v). destruct (w =? c)%N; [auto|rewrite app_nil_r; auto].
    - rewrite app_nil_r. apply B. cbn [length]; discriminate. }
  rewrite X, <- app_assoc. f_equal. cbn [filter]. destruct (is_leaf v); reflexivity.
Qed.
Lemma scan_ok : entries (fst (he_scan c G)) /\ snd (he_scan c G) = map fo (filter is_leaf (seq 0 (m_n G))).
Proof.
  destruct (scan_fold (seq 0 (m_n G)) ([], [])) as [A B]; [intros v I; apply in_seq in I; lia|intros k l []|]. split; [exact A|]. rewrite <- (app_nil_l (map _ _)). exact B.
Qed.

(** a leaf of G *)
Lemma leaf_lone_g v : (0 < c)%N -> v < m_n G -> is_leaf v = true -> exists t, lone c G v t.
Proof.
  intros Pc Hv L. unfold is_leaf in L. destruct (nth v (m_rows G) []) as [|[[t w] r] [|h2 row]] eqn:Er; try discriminate L. apply N.eqb_eq in L. subst w.
  destruct (proj1 (gd_valid _ _ _ GD) v 0 t c r) as (Ht & Nt & _); [unfold slot; rewrite Er; reflexivity|]. exists t. split; [exact Ht|]. split; [auto|]. intros q Hq. unfold wt. rewrite adj_nth, Er. cbn. rewrite (Nat.eqb_sym q t). destruct (t =? q); cbn; lia.
Qed.

(** ** contraction *)
(** a minimum cut does not separate joined vertices *)
Lemma joined_rg x y : joined x y -> x < n /\ y < n.
Proof.
  intros (v & t & w & r & I & _ & D). apply In_nth_error in I as (e & Sl). destruct (proj1 (gd_valid _ _ _ GD) v e t w r Sl) as (Ht & _). destruct (slot_lt _ _ _ _ Sl) as [Hv _].
  destruct (fo_pos v Hv) as [A _], (fo_pos t Ht) as [B _]. destruct D as [[-> ->]|[-> ->]]; auto.
Qed.
Lemma joined_same x y S : joined x y -> gcut G S = c -> S (nth x (m_pos G) 0) = S (nth y (m_pos G) 0).
Proof.
  intros (v & t & w & r & I & Lt & D) E. pose proof (edge_le _ _ _ _ _ I) as We. apply In_nth_error in I as (e & Sl). destruct (proj1 (gd_valid _ _ _ GD) v e t w r Sl) as (Ht & Nt & _). destruct (slot_lt _ _ _ _ Sl) as [Hv _].
  destruct (fo_pos v Hv) as [_ A], (fo_pos t Ht) as [_ B]. assert (X : S v = S t).
  { assert (Sy : symm (m_n G) (wt (adj (m_rows G)))) by (apply valid_symm; apply (gd_valid _ _ _ GD)). destruct (S v) eqn:Sv, (S t) eqn:St; auto; exfalso.
    - pose proof (cutw_le1 (m_n G) (wt (adj (m_rows G))) S v t Hv Ht Sv St) as Q. unfold gcut in E. lia.
    - pose proof (cutw_le1 (m_n G) (wt (adj (m_rows G))) S t v Ht Hv St Sv) as Q. rewrite (Sy t v Ht Hv) in Q. unfold gcut in E. lia. }
  destruct D as [[-> ->]|[-> ->]]; rewrite A, B; auto.
Qed.
Lemma joined_leaf x y v : joined x y -> v < m_n G -> is_leaf v = true -> nth x (m_pos G) 0 <> v /\ nth y (m_pos G) 0 <> v.
Proof.
  intros (v' & t & w & r & I & Lt & D) Hv L. pose proof I as I'. apply In_nth_error in I' as (e & Sl). pose proof (proj1 (gd_valid _ _ _ GD) v' e t w r Sl) as (Ht & Nt & Sl2). destruct (slot_lt _ _ _ _ Sl) as [Hv' _]. destruct (fo_pos v' Hv') as [_ A], (fo_pos t Ht) as [_ B].
  assert (NL : forall a b w' r', In (b, w', r') (nth a (m_rows G) []) -> (c < w')%N -> a <> v).
  { intros a b w' r' J Lw ->. unfold is_leaf in L. destruct (nth v (m_rows G) []) as [|[[t1 w1] r1] [|h2 row]]; try discriminate L. apply N.eqb_eq in L. destruct J as [J|[]]. injection J as <- <- <-. lia. }
  pose proof (NL v' t w r I Lt) as N1. pose proof (NL t v' w e (nth_error_In _ _ Sl2) Lt) as N2. destruct D as [[-> ->]|[-> ->]]; rewrite A, B; auto.
Qed.

Record done (G1 : mg) (h : nat -> nat) : Prop := {
  dn_good : good n c G1; dn_clu : clustering (m_n G) h (m_n G1); dn_con : contraction_of (m_n G) (wt (adj (m_rows G))) h (m_n G1) (wt (adj (m_rows G1)));
  dn_pos : forall x, x < n -> nth x (m_pos G1) 0 = h (nth x (m_pos G) 0); dn_cuts : forall Y, mincuts_of n c G1 Y <-> mincuts_of n c G Y;
  dn_leaf : forall u v, u < m_n G -> v < m_n G -> is_leaf v = true -> h u = h v -> u = v }.
Lemma done_id : done G (fun v => v).
Proof.
  constructor; auto; try tauto.
  - split; auto. intros p Hp. exists p. auto.
  - intros p q Hp Hq Npq. rewrite (bsum_ext (m_n G) _ (fun u => if u =? p then wt (adj (m_rows G)) u q else 0%N)); [rewrite bsum_single; auto|]. intros u Hu. destruct (Nat.eqb_spec u p) as [->|]; cbn [andb].
    + rewrite (bsum_single (m_n G) (fun v => wt (adj (m_rows G)) p v)); auto.
    + apply bsum_zero. auto.
Qed.
Lemma positions_ok (pos : list nat) : forall xs acc, (forall x, In x xs -> x < length pos) ->
  fold_opt (fun l x => option_map (fun p => l ++ [p]) (nth_error pos x)) xs acc = Some (acc ++ map (fun x => nth x pos 0) xs).
Proof.
  induction xs as [|x xs IH]; intros acc H; cbn [fold_opt map]; [rewrite app_nil_r; auto|]. rewrite (nth_error_nth' pos 0) by (apply H; left; auto). cbn [option_map]. rewrite IH by (intros z I; apply H; right; auto). rewrite <- app_assoc. reflexivity.
Qed.

Context (ord : list nat -> list nat) (Or : forall l, Permutation (ord l) l).
Lemma contract_one G1 h k l : done G1 h -> l <> [] -> (forall y, In y l -> joined k y) -> exists G2 h2, he_contract ord G1 (k, l) = Some G2 /\ done G2 h2.
Proof.
  intros [D1 D2 D3 D4 D5 D6] Nl J. assert (Rg : forall x, In x (k :: l) -> x < n).
  { intros x [<-|I]; [destruct l as [|y l]; [congruence|]; apply (joined_rg _ _ (J y (or_introl eq_refl)))|apply (joined_rg _ _ (J x I))]. }
  unfold he_contract. cbn [fst snd]. rewrite positions_ok by (intros x I; rewrite (gd_lp _ _ _ D1); auto). rewrite app_nil_l. set (vs := nodup Nat.eq_dec _). destruct (1 <? length vs); [|exists G1, h; split; [reflexivity|constructor; auto]].
  assert (Iv : forall p, In p (ord vs) <-> exists x, In x (k :: l) /\ nth x (m_pos G1) 0 = p).
  { intro p. split.
    - intro I. apply (Permutation_in _ (Or _)) in I. apply nodup_In in I. apply in_map_iff in I as (x & A & B). exists x. auto.
    - intros (x & A & B). apply (Permutation_in _ (Permutation_sym (Or _))). apply nodup_In, in_map_iff. exists x. auto. }
  assert (ND : NoDup (ord vs)) by (apply (Permutation_NoDup (Permutation_sym (Or _))), NoDup_nodup).
  destruct (gd_lens _ _ _ D1) as (Lp & Lc & Lo).
  destruct (contract_set_ok G1 (ord vs) (gd_valid _ _ _ D1) ND Lp Lc) as (H & f & EH & VH & L1 & L2 & CL & ME & CO & GR).
  destruct (contract_set_keeps G1 (ord vs) H (gd_valid _ _ _ D1) ND Lp Lc (gd_nopar _ _ _ D1) (gd_nozero _ _ _ D1) EH) as (NP & NZ & LA & OR & LO).
  destruct (GR (gd_groups _ _ _ D1)) as (GE & LP & PO). rewrite (gd_lp _ _ _ D1) in PO. exists H, (fun v => f (h v)). split; [exact EH|].
  assert (GH : good n c H). { apply (contracted_good n c G1 D1 H f); auto; [apply LA, D1|]. rewrite (gd_lp _ _ _ D1). auto. }
  assert (Cut : forall S, gcut H S = gcut G1 (fun u => S (f u))) by (intro S; apply contraction_cut; [apply CL|auto]).
  assert (Cut1 : forall S, gcut G1 S = gcut G (fun u => S (h u))) by (intro S; apply contraction_cut; [apply D2|auto]).
  constructor; auto.
  - eapply clustering_compose; eauto.
  - eapply contraction_compose; eauto. apply D2.
  - intros x Hx. rewrite PO, D4 by auto. reflexivity.
  - intro Y. rewrite <- D5. split.
    + intros (S & P & E & A). exists (fun u => S (f u)). split; [eapply proper_pull; eauto|]. split; [rewrite <- Cut; auto|]. intros x Hx. rewrite A, PO by auto. reflexivity.
    + intros (S & P & E & A).
      assert (Same : forall u w, u < m_n G1 -> w < m_n G1 -> f u = f w -> S u = S w).
      { intros u w Hu Hw Q. apply ME in Q; auto. destruct Q as [->|[I1 I2]]; [auto|]. apply Iv in I1 as (x & Ix & <-), I2 as (y & Iy & <-).
        assert (K : forall z, In z (k :: l) -> S (nth z (m_pos G1) 0) = S (nth k (m_pos G1) 0)).
        { intros z [<-|Iz]; [auto|]. rewrite (D4 z) by (apply Rg; right; auto). rewrite (D4 k) by (apply Rg; left; auto).
          symmetry. apply (joined_same k z (fun u => S (h u)) (J z Iz)). rewrite <- Cut1. auto. }
        rewrite (K x Ix), (K y Iy). reflexivity. }
      destruct (descend (m_n G1) f (m_n H) S CL Same) as (T & ET). exists T. split; [|split].
      * destruct P as [(a & Ha & Sa) (b & Hb & Sb)]. split; [exists (f a)|exists (f b)]; (split; [apply CL; auto|]); rewrite ET; auto.
      * rewrite Cut, <- E. apply gcut_ext. intros u Hu. apply ET. auto.
      * intros x Hx. rewrite PO, ET by (auto; apply D1; auto). auto.
  - intros u v Hu Hv L Q. apply ME in Q; [|apply D2; auto|apply D2; auto]. destruct Q as [Q|[_ I]]; [apply D6; auto|exfalso]. apply Iv in I as (x & Ix & Q). rewrite D4 in Q by (apply Rg; auto).
    apply D6 in Q; auto; [|apply GD, Rg; auto]. destruct Ix as [<-|Ix].
    + destruct l as [|y l]; [congruence|]. destruct (joined_leaf k y v (J y (or_introl eq_refl)) Hv L). auto.
    + destruct (joined_leaf k x v (J x Ix) Hv L). auto.
Qed.
Lemma contract_all : forall cs G1 h, done G1 h -> (forall k l, In (k, l) cs -> l <> [] /\ forall y, In y l -> joined k y) -> exists G2 h2, fold_opt (he_contract ord) cs G1 = Some G2 /\ done G2 h2.
Proof.
  induction cs as [|[k l] cs IH]; intros G1 h D J; cbn [fold_opt]; [exists G1, h; auto|]. destruct (J k l (or_introl eq_refl)) as [A B]. destruct (contract_one G1 h k l D A B) as (G2 & h2 & E & D2). rewrite E. apply (IH G2 h2 D2). intros k' l' I. apply J. right. auto.
Qed.
(** a leaf stays a leaf *)
Lemma done_lone G1 h v : (0 < c)%N -> done G1 h -> v < m_n G -> is_leaf v = true -> exists t, lone c G1 (h v) t.
Proof.
  intros Pc [D1 D2 D3 D4 D5 D6] Hv L. destruct (leaf_lone_g v Pc Hv L) as (t & Ht & Nt & W). exists (h t). split; [apply D2; auto|]. split; [intro Q; apply Nt; apply D6; auto|].
  intros q Hq. destruct (Nat.eq_dec q (h v)) as [->|Nq].
  - destruct (Nat.eqb_spec (h v) (h t)) as [Q|_]; [exfalso; apply Nt; apply D6; auto|]. apply P_Hier.wt_loop, valid_undirected, (gd_valid _ _ _ D1).
  - rewrite (D3 (h v) q (proj1 D2 v Hv) Hq ltac:(auto)). rewrite (bsum_ext (m_n G) _ (fun u => if u =? v then (if q =? h t then c else 0%N) else 0%N)); [rewrite (bsum_single (m_n G) (fun _ => if q =? h t then c else 0%N) v Hv); reflexivity|].
    intros u Hu. destruct (Nat.eqb_spec u v) as [->|Nu].
    + rewrite Nat.eqb_refl. cbn [andb]. rewrite (bsum_ext (m_n G) _ (fun b => if b =? t then (if h b =? q then c else 0%N) else 0%N)).
      * rewrite (bsum_single (m_n G) (fun b => if h b =? q then c else 0%N) t Ht). rewrite (Nat.eqb_sym q). reflexivity.
      * intros b Hb. rewrite (W b Hb). destruct (b =? t), (h b =? q); reflexivity.
    + destruct (Nat.eqb_spec (h u) (h v)) as [Q|Q]; [exfalso; apply Nu; apply D6; auto|]. apply bsum_zero. auto.
Qed.
End Scan.
