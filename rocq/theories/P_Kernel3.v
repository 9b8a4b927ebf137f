(* P_Kernel3.v - deleteTermEdges, setTerminals and a whole round of a safe rule. *)
From Coq Require Import Permutation.
From Verif Require Import SpecRel P_UnionFind P_Cut P_Mutable P_Mutable4 P_Mutable7 P_MutableIO P_Multi P_Kernel P_KernelC.

(** ** cost of an assignment when one pair of different blocks loses weight *)
Lemma mtcost_le n W f f' : (forall u v, u < n -> v < n -> W u v <> 0%N -> f u = f v -> f' u = f' v) -> (mtcost n W f' <= mtcost n W f)%N.
Proof.
  intro H. apply bsum_le. intros u Hu. apply bsum_le. intros v Hv. destruct (u <? v); cbn [andb]; [|lia].
  destruct (N.eq_dec (W u v) 0) as [E|E]; [rewrite E; destruct (f' u =? f' v), (f u =? f v); cbn; lia|].
  destruct (Nat.eqb_spec (f u) (f v)) as [F|F]; cbn [negb]; [|destruct (f' u =? f' v); cbn; lia].
  rewrite (H u v Hu Hv E F), Nat.eqb_refl. cbn. lia.
Qed.

Lemma dcost_step n W W' v t w f : v < n -> t < n -> v <> t -> f v <> f t -> wstep W W' n v t w 0 -> (dcost n W' f + 2 * w = dcost n W f)%N.
Proof.
  intros Hv Ht N Nf S. unfold dcost.
  assert (X : (2 * w)%N = bsum n (fun a => bsum n (fun b => if ((Nat.eqb a v && Nat.eqb b t) || (Nat.eqb a t && Nat.eqb b v))%bool then w else 0%N))).
  { rewrite (bsum_ext n _ (fun a => ((if Nat.eqb a v then w else 0) + (if Nat.eqb a t then w else 0))%N)).
    - rewrite bsum_add, (bsum_single n (fun _ => w) v Hv), (bsum_single n (fun _ => w) t Ht). lia.
    - intros a Ha. destruct (Nat.eqb_spec a v) as [->|Na].
      + destruct (Nat.eqb_spec v t); [congruence|]. cbn [andb orb]. rewrite (bsum_ext n _ (fun b => if b =? t then w else 0%N)) by (intros b _; rewrite orb_false_r; reflexivity).
        rewrite (bsum_single n (fun _ => w) t Ht). lia.
      + cbn [andb orb]. destruct (Nat.eqb_spec a t) as [->|Nt]; cbn [andb]; [rewrite (bsum_single n (fun _ => w) v Hv); lia|apply bsum_zero; auto]. }
  rewrite X, <- bsum_add. apply bsum_ext. intros a Ha. rewrite <- bsum_add. apply bsum_ext. intros b Hb. specialize (S a b Ha Hb).
  destruct ((a =? v) && (b =? t) || (a =? t) && (b =? v)) eqn:E; [|destruct (f a =? f b); lia].
  assert (Q : f a <> f b).
  { apply orb_prop in E. destruct E as [E|E]; apply andb_prop in E; destruct E as [E1 E2]; apply Nat.eqb_eq in E1; apply Nat.eqb_eq in E2; subst; auto. }
  destruct (Nat.eqb_spec (f a) (f b)); [contradiction|]. lia.
Qed.

(** ** targets after a deletion *)
Lemma nth_error_upd_eq {A} (l : list A) i x : i < length l -> nth_error (upd l i x) i = Some x.
Proof. intro H. rewrite nth_error_upd by auto. rewrite Nat.eqb_refl. reflexivity. Qed.
Lemma nth_error_upd_neq {A} (l : list A) i x j : j <> i -> nth_error (upd l i x) j = nth_error l j.
Proof.
  intro H. destruct (Nat.lt_ge_cases i (length l)) as [L|L].
  - rewrite nth_error_upd by auto. destruct (Nat.eqb_spec j i); [contradiction|reflexivity].
  - rewrite upd_out by auto. reflexivity.
Qed.
Lemma nth_error_firstn_lt {A} (l : list A) k i : i < k -> nth_error (firstn k l) i = nth_error l i.
Proof. revert k i. induction l as [|a l IH]; intros k i H; [rewrite firstn_nil; reflexivity|]. destruct k; [lia|]. destruct i; [reflexivity|]. cbn. apply IH. lia. Qed.
Lemma set_rev_tgt R v e r R' a b : set_rev R v e r = Some R' -> tgt_of R' a b = tgt_of R a b.
Proof.
  unfold set_rev, tgt_of. destruct (slot R v e) as [[[t w] r0]|] eqn:S; [|discriminate]. intro H. injection H as <-.
  destruct (slot_lt _ _ _ _ S) as [Hv He]. unfold rset, slot in *. destruct (Nat.eq_dec a v) as [->|Na].
  - rewrite nth_upd_eq by auto. destruct (Nat.eq_dec b e) as [->|Nb].
    + rewrite nth_error_upd_eq by auto. rewrite S. reflexivity.
    + rewrite nth_error_upd_neq by auto. reflexivity.
  - rewrite nth_upd_neq by auto. reflexivity.
Qed.

Lemma nth_error_removelast {A} (l : list A) i x : nth_error (removelast l) i = Some x -> nth_error l i = Some x.
Proof.
  revert i. induction l as [|a l IH]; intros i; [destruct i; auto|]. destruct l as [|b l]; [destruct i; discriminate|].
  change (removelast (a :: b :: l)) with (a :: removelast (b :: l)). destruct i; [auto|]. cbn [nth_error]. apply IH.
Qed.

(** every target was a target before; slots above e keep their target or hold the old last one *)
Lemma idel_tgt R v e R' : internal_delete R v e = Some R' -> forall a b t, tgt_of R' a b = Some t ->
  (a <> v -> tgt_of R a b = Some t) /\ (a = v -> (b <> e -> tgt_of R v b = Some t) /\ (b = e -> exists b', e < b' /\ tgt_of R v b' = Some t)).
Proof.
  unfold internal_delete. set (row := nth v R []). destruct (Nat.ltb_spec (S e) (length row)) as [L|L].
  - intros H a b t T. rewrite (set_rev_tgt _ _ _ _ _ a b H) in T. unfold tgt_of, slot in *. split.
    + intro Na. rewrite nth_upd_neq in T by auto. auto.
    + intros ->. destruct (Nat.lt_ge_cases v (length R)) as [Hv|Hv]; [|unfold row in L; rewrite nth_overflow in L by lia; cbn in L; lia].
      rewrite nth_upd_eq in T by auto. destruct (nth_error (removelast _) b) as [h|] eqn:E; [|discriminate]. cbn in T. injection T as <-.
      apply nth_error_removelast in E. split.
      * intro Nb. rewrite nth_error_upd_neq in E by auto. fold row. rewrite E. reflexivity.
      * intros ->. rewrite nth_error_upd_eq in E by lia. injection E as <-. exists (length row - 1). split; [lia|]. fold row.
        rewrite (nth_error_nth' row (0, 0%N, 0)) by lia. reflexivity.
  - destruct (length row =? 0); [discriminate|]. intro H. injection H as <-. intros a b t T. unfold tgt_of, slot in *. split.
    + intro Na. rewrite nth_upd_neq in T by auto. auto.
    + intros ->. destruct (Nat.lt_ge_cases v (length R)) as [Hv|Hv].
      2:{ rewrite (nth_overflow (upd R v (removelast row))) in T by (rewrite upd_length; lia). destruct b; discriminate. }
      rewrite nth_upd_eq in T by auto. destruct (nth_error (removelast row) b) as [h|] eqn:E; [|discriminate].
      split; [intro Nb; fold row; rewrite (nth_error_removelast _ _ _ E); auto|].
      intros ->. exfalso. assert (X : e < length (removelast row)) by (apply nth_error_Some; rewrite E; discriminate).
      destruct row as [|h0 row]; [cbn in X; lia|]. rewrite (removelast_firstn_len (h0 :: row)) in X. rewrite firstn_length in X. lia.
Qed.

Lemma delete_edge_idel G v e t w r G' : mvalid G -> slot (m_rows G) v e = Some (t, w, r) -> m_delete_edge G v e = Some G' ->
  exists R1, internal_delete (m_rows G) v e = Some R1 /\ internal_delete R1 t r = Some (m_rows G').
Proof.
  intros [V [DG CN]] Sv. set (R := m_rows G) in *. pose proof (proj2 (linked_valid R) V) as L.
  destruct (L v e t w r Sv eq_refl) as [Ht [Nt [_ St]]]. destruct (slot_lt _ _ _ _ Sv) as [Hv He].
  destruct (delete_edge_rows R v e t w r L Sv) as (R1 & R2 & E1 & E2 & LK1 & Hr1 & LK2 & N2 & C).
  unfold m_delete_edge. fold R. rewrite Sv.
  pose proof (relink_pop nodead R v e L He (fun _ => eq_refl)) as P. cbn zeta in P. rewrite E1 in P.
  destruct (if S e <? length (nth v R []) then _ else _) as [Ra|]; [|discriminate]. injection P as ->.
  pose proof (relink_pop _ R1 t r LK1 Hr1) as P. cbn zeta in P. rewrite E2 in P.
  specialize (P ltac:(intro Hl; destruct (Nat.eqb_spec (rl R1 t - 1) r); [lia|apply andb_false_r])).
  assert (Hz : length (nth t R1 []) =? 0 = false) by (apply Nat.eqb_neq; unfold rl in Hr1; lia). rewrite Hz.
  destruct (if S r <? length (nth t R1 []) then _ else _) as [Rb|]; [|discriminate]. injection P as ->.
  intro H. injection H as <-. exists R1. cbn. auto.
Qed.

Lemma delete_edge_tgt G v e t w r G' : mvalid G -> slot (m_rows G) v e = Some (t, w, r) -> t <> v -> m_delete_edge G v e = Some G' ->
  forall a b t', tgt_of (m_rows G') a b = Some t' ->
    (exists b', tgt_of (m_rows G) a b' = Some t') /\ (a = v -> (b <> e -> tgt_of (m_rows G) v b = Some t') /\ (b = e -> exists b', e < b' /\ tgt_of (m_rows G) v b' = Some t')).
Proof.
  intros MV S Nt E a b t' T. destruct (delete_edge_idel G v e t w r G' MV S E) as (R1 & E1 & E2).
  pose proof (idel_tgt _ _ _ _ E2 a b t' T) as [A1 A2].
  assert (B : exists b1, tgt_of R1 a b1 = Some t' /\ (a = v -> b1 = b)).
  { destruct (Nat.eq_dec a t) as [->|Na]; [|exists b; auto]. destruct (A2 eq_refl) as [X Y].
    destruct (Nat.eq_dec b r) as [->|Nr]; [|exists b; auto]. destruct (Y eq_refl) as (b' & _ & Z). exists b'. split; [auto|]. intro. contradiction. }
  destruct B as (b1 & T1 & Q). pose proof (idel_tgt _ _ _ _ E1 a b1 t' T1) as [B1 B2]. split.
  - destruct (Nat.eq_dec a v) as [->|Na]; [|exists b1; auto]. destruct (B2 eq_refl) as [X Y].
    destruct (Nat.eq_dec b1 e) as [->|Ne]; [|exists b1; auto]. destruct (Y eq_refl) as (b' & _ & Z). exists b'. auto.
  - intros ->. rewrite (Q eq_refl) in *. apply B2. reflexivity.
Qed.

Lemma delete_edge_rest G v e G' : m_delete_edge G v e = Some G' -> m_part G' = m_part G /\ m_cut G' = m_cut G.
Proof.
  unfold m_delete_edge. destruct (slot (m_rows G) v e) as [[[t w] r]|]; [|discriminate].
  destruct (if S e <? length (nth v (m_rows G) []) then _ else _) as [Ra|]; [|discriminate]. cbn zeta.
  repeat match goal with |- match ?X with _ => _ end = Some _ -> _ => destruct X; try discriminate end; intro H; injection H as <-; auto.
Qed.

(** ** deleteTermEdges *)
Section Del.
Context (ts : list nat) (n : nat).

Record dstate (G G' : mg) (w : N) : Prop := {
  d_valid : mvalid G';
  d_n : m_n G' = n;
  d_pos : m_pos G' = m_pos G;
  d_cont : m_cont G' = m_cont G;
  d_part : m_part G' = m_part G;
  d_cut : m_cut G' = m_cut G;
  d_tgt : forall a b t, tgt_of (m_rows G') a b = Some t -> exists b', tgt_of (m_rows G) a b' = Some t;
  d_keep : forall a b, a < n -> b < n -> ~ (In a ts /\ In b ts) -> wt (adj (m_rows G')) a b = wt (adj (m_rows G)) a b;
  d_cost : forall f, (forall s t, In s ts -> In t ts -> s <> t -> f s <> f t) ->
             (mtcost n (wt (adj (m_rows G'))) f + w = mtcost n (wt (adj (m_rows G))) f)%N }.

Lemma dstate_refl G : mvalid G -> m_n G = n -> dstate G G 0.
Proof. intros V N. constructor; auto; [eauto|]. intros. lia. Qed.

Lemma dstate_trans G1 G2 G3 w w' : dstate G1 G2 w -> dstate G2 G3 w' -> dstate G1 G3 (w + w').
Proof.
  intros [A1 A2 A3 A4 A8 A9 A5 A6 A7] [B1 B2 B3 B4 B8 B9 B5 B6 B7]. constructor; auto; try congruence.
  - intros a b t T. destruct (B5 a b t T) as [b' T']. eauto.
  - intros a b Ha Hb H. rewrite B6, A6 by auto. reflexivity.
  - intros f F. rewrite <- (A7 f F), <- (B7 f F). lia.
Qed.

Lemma del_row_ok term : In term ts -> forall k G w0, mvalid G -> m_n G = n -> k <= rl (m_rows G) term ->
  (forall b t, k <= b -> tgt_of (m_rows G) term b = Some t -> ~ In t ts) ->
  exists G' w, del_row k ts term (G, w0) = Some (G', (w0 + w)%N) /\ dstate G G' w /\ (forall b t, tgt_of (m_rows G') term b = Some t -> ~ In t ts).
Proof.
  intro IT. induction k as [|e IH]; intros G w0 V Hn Hk Hi; cbn [del_row].
  - exists G, 0%N. rewrite N.add_0_r. split; [auto|]. split; [apply dstate_refl; auto|]. intros b t T. apply (Hi b); [lia|auto].
  - cbn [fst snd]. destruct (slot_some (m_rows G) term e ltac:(lia)) as (t & w & r & S). rewrite S.
    destruct (proj1 V term e t w r S) as (Ht & Nt & SR). destruct (isterm ts t) eqn:T.
    + apply isterm_In in T. destruct (delete_edge_ok G term e t w r V S) as (G1 & E1 & V1 & N1 & WS & P1 & C1).
      pose proof (delete_edge_tgt G term e t w r G1 V S Nt E1) as TG. rewrite E1.
      assert (Hterm : term < n) by (rewrite <- Hn; unfold m_n; apply (slot_lt _ _ _ _ S)).
      assert (D1 : dstate G G1 w).
      { destruct (delete_edge_rest _ _ _ _ E1) as [PT CU]. constructor; auto; [congruence| | |].
        - intros a b t' X. apply (TG a b t' X).
        - intros a b Ha Hb Nab. rewrite Hn in WS. specialize (WS a b Ha Hb).
          destruct ((a =? term) && (b =? t) || (a =? t) && (b =? term)) eqn:Q; [|lia]. exfalso. apply Nab.
          apply orb_prop in Q. destruct Q as [Q|Q]; apply andb_prop in Q; destruct Q as [Q1 Q2]; apply Nat.eqb_eq in Q1; apply Nat.eqb_eq in Q2; subst; auto.
        - intros f F. rewrite Hn in WS. pose proof (dcost_step n _ _ term t w f Hterm ltac:(unfold m_n in Hn; lia) ltac:(auto) (F term t IT T ltac:(auto)) WS) as X.
          rewrite !dcost_half in X.
          + lia.
          + rewrite <- Hn. unfold m_n. apply W_symm. apply V.
          + rewrite <- Hn, <- N1. unfold m_n. apply W_symm. apply V1. }
      destruct (IH G1 (w0 + w)%N V1 ltac:(congruence)) as (G2 & w' & E2 & D2 & Z).
      * (* row length *)
        destruct (delete_edge_idel G term e t w r G1 V S E1) as (R1 & I1 & I2).
        assert (X : forall b, b < e -> exists t', tgt_of (m_rows G1) term b = Some t').
        { intros b Hb. 
          assert (XA : forall R v e' R', internal_delete R v e' = Some R' -> forall a c, (a <> v \/ (c < e' /\ e' < length (nth v R []))) -> tgt_of R' a c = tgt_of R a c).
          { clear. intros R v e' R' H a c HC. unfold internal_delete in H. destruct (Nat.ltb_spec (Datatypes.S e') (length (nth v R []))) as [L|L].
            - rewrite (set_rev_tgt _ _ _ _ _ a c H). unfold tgt_of, slot. destruct (Nat.eq_dec a v) as [->|Na]; [|rewrite nth_upd_neq by auto; reflexivity].
              assert (Hv : v < length R) by (destruct (Nat.lt_ge_cases v (length R)); [auto|rewrite nth_overflow in L by lia; cbn in L; lia]).
              rewrite nth_upd_eq by auto. f_equal. destruct HC as [?|HC]; [congruence|].
              rewrite removelast_firstn_len, upd_length. rewrite nth_error_firstn_lt by lia. apply nth_error_upd_neq. lia.
            - destruct (length (nth v R []) =? 0) eqn:Z; [discriminate|]. injection H as <-. apply Nat.eqb_neq in Z. unfold tgt_of, slot. destruct (Nat.eq_dec a v) as [->|Na]; [|rewrite nth_upd_neq by auto; reflexivity].
              assert (Hv : v < length R) by (destruct (Nat.lt_ge_cases v (length R)); [auto|rewrite nth_overflow in Z by lia; cbn in Z; lia]).
              rewrite nth_upd_eq by auto. f_equal. destruct HC as [?|HC]; [congruence|].
              rewrite removelast_firstn_len.
              destruct (Nat.lt_ge_cases c (length (nth v R []) - 1)) as [Lc|Lc]; [rewrite nth_error_firstn_lt by lia; reflexivity|]. lia. }
          rewrite (XA _ _ _ _ I2) by (left; auto). rewrite (XA _ _ _ _ I1) by (right; split; [auto|unfold rl in Hk; lia]).
          destruct (slot_some (m_rows G) term b ltac:(lia)) as (t' & w'' & r'' & S'). unfold tgt_of. rewrite S'. exists t'. reflexivity. }
        destruct e as [|e]; [lia|]. destruct (X e ltac:(lia)) as [t' X']. unfold tgt_of in X'.
        destruct (slot (m_rows G1) term e) as [h|] eqn:SS; [|discriminate]. apply slot_lt in SS. lia.
      * intros b t' Hb X. destruct (TG term b t' X) as [_ Y]. destruct (Y eq_refl) as [Y1 Y2]. destruct (Nat.eq_dec b e) as [->|Nb].
        -- destruct (Y2 eq_refl) as (b' & Hb' & Z). apply (Hi b'); [lia|auto].
        -- apply (Hi b); [lia|auto].
      * exists G2, (w + w')%N. rewrite E2. split; [f_equal; f_equal; lia|]. split; [|auto]. eapply dstate_trans; eauto.
    + apply isterm_out in T. apply IH; auto; [lia|]. intros b t' Hb X. destruct (Nat.eq_dec b e) as [->|Nb].
      * unfold tgt_of in X. rewrite S in X. cbn in X. injection X as <-. auto.
      * apply (Hi b); [lia|auto].
Qed.

Lemma del_terms_ok : forall us G w0, mvalid G -> m_n G = n -> (forall t, In t us -> t < n /\ In t ts) ->
  exists G' w, del_terms us ts (G, w0) = Some (G', (w0 + w)%N) /\ dstate G G' w /\
    (forall s b t, In s us -> tgt_of (m_rows G') s b = Some t -> ~ In t ts).
Proof.
  induction us as [|s us IH]; intros G w0 V Hn H; cbn [del_terms].
  - exists G, 0%N. rewrite N.add_0_r. split; [auto|]. split; [apply dstate_refl; auto|]. intros ? ? ? [].
  - cbn [fst]. destruct (H s (or_introl eq_refl)) as [Hs Is]. destruct (Nat.ltb_spec s (m_n G)); [|lia].
    destruct (del_row_ok s Is (length (nth s (m_rows G) [])) G w0 V Hn ltac:(reflexivity)) as (G1 & w1 & -> & D1 & Z1).
    { intros b t Hb X. unfold tgt_of in X. destruct (slot (m_rows G) s b) eqn:S; [|discriminate]. apply slot_lt in S. unfold rl in S. lia. }
    destruct (IH G1 (w0 + w1)%N (d_valid _ _ _ D1) (d_n _ _ _ D1)) as (G2 & w2 & -> & D2 & Z2).
    { intros t Ht. apply H. right. auto. }
    exists G2, (w1 + w2)%N. split; [f_equal; f_equal; lia|]. split; [eapply dstate_trans; eauto|].
    intros s' b t [<-|Hs'] X; [|eapply Z2; eauto]. destruct (d_tgt _ _ _ D2 s b t X) as [b' X']. eapply Z1; eauto.
Qed.
End Del.

Theorem del_term_edges_ok G ts : mvalid G -> (forall t, In t ts -> t < m_n G) ->
  exists G' w, del_term_edges G ts = Some (G', w) /\ dstate ts (m_n G) G G' w /\
    (forall s t, In s ts -> In t ts -> forall b, tgt_of (m_rows G') s b <> Some t).
Proof.
  intros V H. unfold del_term_edges. destruct (del_terms_ok ts (m_n G) ts G 0%N V eq_refl) as (G' & w & E & D & Z).
  - intros t Ht. auto.
  - exists G', w. split; [exact E|]. split; [auto|]. intros s t Hs Ht b X. apply (Z s b t); auto.
Qed.

(** ** setTerminals *)
Definition at_positions (G : mg) (maps : list (list nat)) (origs T : list nat) : Prop :=
  length T = length origs /\
  forall i o, nth_error origs i = Some o -> exists o', mapped maps o = Some o' /\ nth_error (m_pos G) o' = Some (nth i T 0).
Definition live (G : mg) (T : list nat) : list nat := filter (fun v => 0 <? length (nth v (m_rows G) [])) T.

Lemma set_terminals_ok G maps : forall origs T i, at_positions G maps origs T -> (forall t, In t T -> t < m_n G) ->
  exists L, set_terminals G maps origs i = Some L /\ map fst L = live G T.
Proof.
  induction origs as [|o origs IH]; intros T i [LT AP] HT; cbn [set_terminals].
  - destruct T; [|discriminate]. exists []. auto.
  - destruct T as [|v T]; [discriminate|]. destruct (AP 0 o eq_refl) as (o' & -> & E). cbn [nth] in E. rewrite E.
    destruct (Nat.leb_spec (m_n G) v) as [L|L]; [specialize (HT v (or_introl eq_refl)); lia|].
    destruct (IH T (S i)) as (L' & -> & EL).
    + split; [cbn in LT; lia|]. intros j o2 Hj. apply (AP (S j) o2 Hj).
    + intros t Ht. apply HT. right. auto.
    + unfold live in *. cbn [filter]. destruct (0 <? length (nth v (m_rows G) [])); eexists; (split; [reflexivity|]); cbn [map fst]; congruence.
Qed.

Lemma row_nil_wt R u v : valid_rows R -> nth u R [] = [] \/ nth v R [] = [] -> wt (adj R) u v = 0%N.
Proof.
  intros V H. assert (X : forall a b, nth a R [] = [] -> wt (adj R) a b = 0%N) by (intros a b E; unfold wt; rewrite adj_nth, E; reflexivity).
  destruct H as [H|H]; [auto|].
  destruct (Nat.lt_ge_cases u (length R)) as [Hu|Hu]; [|apply X, nth_overflow; auto].
  destruct (Nat.lt_ge_cases v (length R)) as [Hv|Hv].
  - rewrite (W_symm R V u v) by auto. auto.
  - unfold wt. rewrite adj_nth, sumN_filter, sumN_map. apply sumN_zero. intros [[t w] r] Hh. cbn. destruct (Nat.eqb_spec t v) as [->|]; [|reflexivity].
    destruct (row_target R V u v w r Hh). lia.
Qed.

(** position of x in l *)
Fixpoint idx (x : nat) (l : list nat) : nat := match l with [] => 0 | y :: l' => if Nat.eqb x y then 0 else S (idx x l') end.
Lemma idx_nth x l : In x l -> nth (idx x l) l 0 = x /\ idx x l < length l.
Proof. induction l as [|y l IH]; intros H; [contradiction|]. cbn [idx]. destruct (Nat.eqb_spec x y) as [->|N]; [cbn; split; [auto|lia]|]. destruct H as [->|H]; [congruence|]. destruct (IH H). cbn. split; [auto|lia]. Qed.
Lemma nth_idx l i : NoDup l -> i < length l -> idx (nth i l 0) l = i.
Proof.
  revert i. induction l as [|y l IH]; intros i ND Hi; [cbn in Hi; lia|]. inversion ND. subst. destruct i; cbn [nth idx]; [rewrite Nat.eqb_refl; auto|].
  cbn in Hi. destruct (Nat.eqb_spec (nth i l 0) y) as [E|_]; [|rewrite IH by (auto; lia); auto]. exfalso. apply H1. rewrite <- E. apply nth_In. lia.
Qed.

Lemma separates_in n T f : separates n T f -> NoDup T -> forall t, In t T -> f t = idx t T.
Proof. intros [_ B] ND t Ht. destruct (idx_nth t T Ht) as [E L]. rewrite <- E at 1. auto. Qed.
Lemma separates_of n T f : NoDup T -> (forall v, v < n -> f v < length T) -> (forall t, In t T -> f t = idx t T) -> separates n T f.
Proof. intros ND A B. split; [auto|]. intros i Hi. rewrite B by (apply nth_In; auto). apply nth_idx; auto. Qed.
Lemma separates_nodup n T f : separates n T f -> NoDup T.
Proof.
  intros [_ B]. apply (NoDup_nth T 0). intros i j Hi Hj E. rewrite <- (B i Hi), <- (B j Hj), E. reflexivity.
Qed.

(** a rule that is safe for the terminals with edges is safe for all terminals *)
Lemma safe_live G T ps : mvalid G -> (forall t, In t T -> t < m_n G) -> edges_only (m_rows G) ps ->
  safe_pairs (m_n G) (wt (adj (m_rows G))) (live G T) (conn ps) -> safe_pairs (m_n G) (wt (adj (m_rows G))) T (conn ps).
Proof.
  intros MV HT EO SP f F. set (n := m_n G) in *. set (W := wt (adj (m_rows G))) in *. set (L := live G T) in *.
  pose proof (separates_nodup n T f F) as ND.
  assert (NDL : NoDup L) by (apply NoDup_filter; auto).
  assert (LI : forall t, In t L <-> In t T /\ nth t (m_rows G) [] <> []).
  { intro t. unfold L, live. rewrite filter_In, Nat.ltb_lt. destruct (nth t (m_rows G) []); cbn; intuition (try congruence; try lia). }
  assert (F2 : exists f2, (forall v, v < n -> f2 v < length T) /\ (forall t, In t L -> f2 t = idx t T) /\ (mtcost n W f2 <= mtcost n W f)%N /\
     (forall a b, a < n -> b < n -> conn ps a b -> nth a (m_rows G) [] <> [] -> nth b (m_rows G) [] <> [] -> f2 a = f2 b)).
  { destruct (list_eq_dec Nat.eq_dec L []) as [EL|NL].
    - exists (fun _ => 0). assert (Z : 0 < n -> 0 < length T) by (intro; destruct F as [A _]; specialize (A 0); lia).
      split; [intros; apply Z; lia|]. split; [rewrite EL; intros ? []|]. split; [|auto].
      apply mtcost_le. auto.
    - destruct (SP (fun v => if in_dec Nat.eq_dec (nth (f v) T 0) L then idx (nth (f v) T 0) L else 0)) as (f1 & F1 & C1 & K1).
      + apply separates_of; auto.
        * intros v Hv. destruct (in_dec Nat.eq_dec _ L) as [I|I]; [apply idx_nth; auto|destruct L; [congruence|cbn; lia]].
        * intros t Ht. pose proof (proj1 (LI t) Ht) as [TT _]. rewrite (separates_in n T f F ND t TT). rewrite (proj1 (idx_nth t T TT)).
          destruct (in_dec Nat.eq_dec t L); [auto|contradiction].
      + exists (fun v => idx (nth (f1 v) L 0) T). split; [|split; [|split]].
        * intros v Hv. apply idx_nth. apply LI. apply nth_In. apply F1. auto.
        * intros t Ht. rewrite (separates_in n L f1 F1 NDL t Ht). rewrite (proj1 (idx_nth t L Ht)). reflexivity.
        * eapply N.le_trans; [apply (mtcost_le n W f1); intros u v _ _ _ E; rewrite E; reflexivity|].
          eapply N.le_trans; [exact C1|]. apply (mtcost_le n W f). intros u v _ _ _ E. rewrite E. reflexivity.
        * intros a b Ha Hb C _ _. rewrite (K1 a b Ha Hb C). reflexivity. }
  destruct F2 as (f2 & R2 & T2 & C2 & K2).
  set (iso := fun v => if in_dec Nat.eq_dec v T then match nth v (m_rows G) [] with [] => true | _ => false end else false).
  assert (ISO : forall v, iso v = true <-> In v T /\ nth v (m_rows G) [] = []).
  { intro v. unfold iso. destruct (in_dec Nat.eq_dec v T); [|split; [discriminate|tauto]]. destruct (nth v (m_rows G) []); intuition congruence. }
  exists (fun v => if iso v then idx v T else f2 v). split; [|split].
  - apply separates_of; auto.
    + intros v Hv. destruct (iso v) eqn:E; [apply idx_nth; apply ISO; auto|auto].
    + intros t Ht. destruct (iso t) eqn:E; [auto|]. apply T2. apply LI. split; [auto|]. intro Z. assert (iso t = true) by (apply ISO; auto). congruence.
  - eapply N.le_trans; [|exact C2]. apply (mtcost_le n W f2). intros u v Hu Hv NW E.
    destruct (iso u) eqn:Eu; [exfalso; apply NW; apply row_nil_wt; [apply MV|left; apply ISO; auto]|].
    destruct (iso v) eqn:Ev; [exfalso; apply NW; apply row_nil_wt; [apply MV|right; apply ISO; auto]|]. auto.
  - intros a b Ha Hb C.
    assert (X : a = b \/ (nth a (m_rows G) [] <> [] /\ nth b (m_rows G) [] <> [])).
    { revert C. clear - EO. revert a b. apply conn_in_relation.
      - intro. auto.
      - intros x y [->|[? ?]]; auto.
      - intros x y z [->|[? ?]] [<-|[? ?]]; auto.
      - intros x y H. right. apply EO. auto. }
    destruct X as [->|[NA NB]]; [reflexivity|].
    assert (Ia : iso a = false) by (destruct (iso a) eqn:E; [apply ISO in E; tauto|auto]).
    assert (Ib : iso b = false) by (destruct (iso b) eqn:E; [apply ISO in E; tauto|auto]). rewrite Ia, Ib. auto.
Qed.

(** the state between two rules *)
Record kstate (G : mg) (maps : list (list nat)) (origs T : list nat) : Prop := {
  ks_valid : mvalid G;
  ks_part : length (m_part G) = m_n G;
  ks_cut : length (m_cut G) = m_n G;
  ks_groups : groups_exact (m_n G) (m_cont G) (m_pos G);
  ks_some : forall p, p < m_n G -> nth p (m_cont G) [] <> [];
  ks_pos : at_positions G maps origs T;
  ks_lt : forall t, In t T -> t < m_n G;
  ks_nd : NoDup T }.

Lemma mtopt_shift n W W' ts w : (forall f, separates n ts f -> (mtcost n W' f + w = mtcost n W f)%N) ->
  forall c, mtopt n W ts c <-> exists c', mtopt n W' ts c' /\ c = (c' + w)%N.
Proof.
  intros H c. split.
  - intros [[f [F E]] L]. exists (mtcost n W' f). split; [|rewrite H by auto; auto]. split; [exists f; auto|].
    intros f' F'. specialize (L f' F'). pose proof (H f F). pose proof (H f' F'). lia.
  - intros (c' & [[f [F E]] L] & ->). split; [exists f; split; [auto|]; rewrite <- H by auto; lia|].
    intros f' F'. specialize (L f' F'). pose proof (H f' F'). lia.
Qed.

Theorem rule_step_ok rule ord G maps origs T : (forall l, Permutation (ord l) l) -> kstate G maps origs T ->
  (exists u ps, rule G (live G T) = Some u /\ inv (m_n G) ps u /\
     safe_pairs (m_n G) (wt (adj (m_rows G))) (live G T) (conn ps) /\ edges_only (m_rows G) ps) ->
  0 < length T ->
  exists G' ts' w T', rule_step rule ord maps origs G = Some (G', ts', w) /\ kstate G' maps origs T' /\ map fst ts' = live G' T' /\
    forall c, mtopt (m_n G) (wt (adj (m_rows G))) T c <-> exists c', mtopt (m_n G') (wt (adj (m_rows G'))) T' c' /\ c = (c' + w)%N.
Proof.
  intros OP KS (u & ps & ER & I & SP & EO) PT. pose proof KS as [A1 A2 A3 A4 A5 A6 A7 A8].
  unfold rule_step. destruct (set_terminals_ok G maps origs T 0 A6 A7) as (L & -> & EL). rewrite EL, ER.
  destruct (cnt u <? m_n G).
  2:{ exists G, L, 0%N, T. split; [reflexivity|]. split; [auto|]. split; [auto|]. intro c. split; [intro; exists c; split; [auto|lia]|intros (c' & M & ->); rewrite N.add_0_r; auto]. }
  destruct (contract_if_improved_ok ord G ps u OP A1 A2 A3 A4 A5 I) as (G1 & g & -> & V1 & P1 & C1 & GR1 & NE1 & CL & GC & CT & LN & PS).
  set (T1 := map g T).
  assert (ST : safe_pairs (m_n G) (wt (adj (m_rows G))) T (conn ps)) by (apply safe_live; auto).
  assert (EX : exists f, separates (m_n G) T f).
  { exists (fun v => if in_dec Nat.eq_dec v T then idx v T else 0). apply separates_of; auto.
    - intros v Hv. destruct (in_dec Nat.eq_dec v T); [apply idx_nth; auto|auto].
    - intros t Ht. destruct (in_dec Nat.eq_dec t T); [auto|contradiction]. }
  assert (ND1 : NoDup T1).
  { destruct EX as [f F]. destruct (ST f F) as (f' & F' & _ & K). unfold T1. apply (NoDup_nth (map g T) 0). rewrite map_length. intros i j Hi Hj E.
    rewrite !(nth_indep (map g T) 0 (g 0)), !map_nth in E by (rewrite map_length; auto).
    assert (Q : conn ps (nth i T 0) (nth j T 0)) by (apply GC; auto; apply A7, nth_In; auto).
    apply K in Q; [|apply A7, nth_In; auto..]. rewrite !(proj2 F') in Q by auto. auto. }
  assert (AP1 : at_positions G1 maps origs T1).
  { destruct A6 as [LT AP]. split; [unfold T1; rewrite map_length; auto|]. intros i o Ho. destruct (AP i o Ho) as (o' & M & E). exists o'. split; [auto|].
    assert (Ho' : o' < length (m_pos G)) by (apply nth_error_Some; rewrite E; discriminate).
    rewrite (nth_error_nth' (m_pos G1) 0) by lia. f_equal. rewrite PS by auto. unfold T1. rewrite (nth_indep (map g T) 0 (g 0)).
    - rewrite map_nth. f_equal. apply nth_error_nth with (d := 0) in E. auto.
    - rewrite map_length, LT. apply nth_error_Some. rewrite Ho. discriminate. }
  assert (LT1 : forall t, In t T1 -> t < m_n G1).
  { intros t Ht. apply in_map_iff in Ht. destruct Ht as (x & <- & Hx). apply CL. auto. }
  destruct (set_terminals_ok G1 maps origs T1 0 AP1 LT1) as (L1 & -> & EL1). rewrite EL1.
  assert (LL : forall t, In t (live G1 T1) -> In t T1) by (intros t Ht; apply filter_In in Ht; tauto).
  destruct (del_term_edges_ok G1 (live G1 T1) V1) as (G2 & w & -> & D & Z); [intros; auto|].
  assert (AP2 : at_positions G2 maps origs T1) by (unfold at_positions; rewrite (d_pos _ _ _ _ _ D); exact AP1).
  assert (LT2 : forall t, In t T1 -> t < m_n G2) by (intros t Ht; rewrite (d_n _ _ _ _ _ D); auto).
  destruct (set_terminals_ok G2 maps origs T1 0 AP2 LT2) as (L2 & -> & EL2).
  exists G2, L2, w, T1. split; [reflexivity|]. split; [|split; [auto|]].
  - constructor; auto.
    + apply (d_valid _ _ _ _ _ D).
    + rewrite (d_part _ _ _ _ _ D), (d_n _ _ _ _ _ D). auto.
    + rewrite (d_cut _ _ _ _ _ D), (d_n _ _ _ _ _ D). auto.
    + rewrite (d_cont _ _ _ _ _ D), (d_n _ _ _ _ _ D), (d_pos _ _ _ _ _ D). auto.
    + rewrite (d_cont _ _ _ _ _ D), (d_n _ _ _ _ _ D). auto.
  - intro c. rewrite (safe_contraction (m_n G) (wt (adj (m_rows G))) T (conn ps) g (m_n G1) (wt (adj (m_rows G1)))); auto.
    + rewrite (d_n _ _ _ _ _ D). apply mtopt_shift. intros f F. apply (d_cost _ _ _ _ _ D). intros s t Hs Ht N.
      rewrite (separates_in _ _ _ F ND1 s), (separates_in _ _ _ F ND1 t) by auto. intro E.
      apply N. rewrite <- (proj1 (idx_nth s T1 (LL s Hs))), <- (proj1 (idx_nth t T1 (LL t Ht))), E. reflexivity.
    + apply W_symm. apply A1.
    + apply W_symm. apply V1.
    + intros a b Ha Hb E. apply GC; auto.
Qed.
