(* P_IsoFlow2.v - maximumIsolatingFlow keeps the optimum and reports valid bounds. *)
From Coq Require Import Permutation.
From Verif Require Import SpecFlow P_Cut P_Mutable P_Multi P_Kernel P_KernelC P_Kernel3 P_Kernel5 P_Iso M_IsoFlow P_Flow6 P_IsoFlow.

Lemma set_terminals_full G maps : forall origs T i, at_positions G maps origs T -> (forall t, In t T -> t < m_n G) ->
  set_terminals G maps origs i = Some (filter (fun p => 0 <? length (nth (fst p) (m_rows G) [])) (combine T (seq i (length T)))).
Proof.
  induction origs as [|o origs IH]; intros T i [LT AP] HT; cbn [set_terminals].
  - destruct T; [|discriminate]. reflexivity.
  - destruct T as [|v T]; [discriminate|]. destruct (AP 0 o eq_refl) as (o' & -> & E). cbn [nth] in E. rewrite E.
    destruct (Nat.leb_spec (m_n G) v) as [L|L]; [specialize (HT v (or_introl eq_refl)); lia|].
    rewrite (IH T (S i)).
    + cbn [length seq combine filter fst]. destruct (0 <? length (nth v (m_rows G) [])); reflexivity.
    + split; [cbn in LT; lia|]. intros j o2 Hj. apply (AP (S j) o2 Hj).
    + intros t Ht. apply HT. right. auto.
Qed.

Lemma firstn_snoc (l : list nat) k : k < length l -> firstn (S k) l = firstn k l ++ [nth k l 0].
Proof. revert k. induction l as [|a l IH]; intros k H; [cbn in H; lia|]. destruct k; [reflexivity|]. cbn in H. cbn [firstn nth app]. f_equal. apply IH. lia. Qed.
Lemma wt_self R x : valid_rows R -> wt (adj R) x x = 0%N.
Proof.
  intro V. unfold wt. rewrite adj_nth, sumN_filter, sumN_map. apply sumN_zero. intros [[t w] r] H. cbn [fst snd]. apply In_nth_error in H. destruct H as [e S].
  destruct (V x e t w r S) as [_ [N _]]. destruct (Nat.eqb_spec t x); [congruence|reflexivity].
Qed.

(** the runs of the flows *)
Definition good_block (R : list (list half)) (ts : list nat) (s : nat) (l : list nat) : Prop :=
  NoDup l /\ (forall v, In v l -> v < length R /\ (v = s \/ (nth v R [] <> [] /\ nth s R [] <> []))) /\ exists c, min_isolating (length R) (wt (adj R)) ts s (mem l) c.

Lemma runs_ok R ts (pick : nat -> nat -> list nat -> nat) gl : valid_rows R -> (forall t, In t ts -> t < length R) -> NoDup ts ->
  (forall i k q, q <> [] -> In (pick i k q) q) ->
  exists F bs, map fst bs = ts /\ (forall s l, In (s, l) bs -> good_block R ts s l) /\
    forall fuel, F <= fuel -> forall i, i < length ts -> exists x, solve_max_flow fuel (pick i) (gl i) R ts i = Some (x, snd (nth i bs (0, []))).
Proof.
  intros V Ht Nd Hp.
  assert (G : forall k, k <= length ts -> exists F bs, map fst bs = firstn k ts /\ (forall s l, In (s, l) bs -> good_block R ts s l) /\
    forall fuel, F <= fuel -> forall i, i < k -> exists x, solve_max_flow fuel (pick i) (gl i) R ts i = Some (x, snd (nth i bs (0, [])))).
  { induction k as [|k IH]; intro Hk.
    - exists 0, []. split; [reflexivity|]. split; [intros ? ? []|]. intros. lia.
    - destruct (IH ltac:(lia)) as (F & bs & A & B & C). assert (Lb : length bs = k) by (rewrite <- (map_length fst bs), A; apply firstn_length_le; lia).
      set (s := nth k ts 0). assert (Es : nth_error ts k = Some s) by (apply nth_error_nth'; lia).
      destruct (solve_ok R ts s V Ht (nth_error_In _ _ Es) Nd (pick k) (gl k) k Es (Hp k)) as (F' & c & l & D1 & D2 & D3 & D4 & D5 & D6 & D7).
      exists (Nat.max F F'), (bs ++ [(s, l)]). split; [|split].
      + rewrite map_app, A. symmetry. apply firstn_snoc. lia.
      + intros s' l' H. apply in_app_or in H. destruct H as [H|[H|[]]]; [auto|]. injection H as <- <-. split; [auto|]. split; [auto|]. exists c. split; [|split; [auto|]].
        * split; [apply mem_In; auto|]. intros t T1 T2. apply mem_out. auto.
        * intros S [S1 S2]. apply D7; auto.
      + intros fuel Hf i Hi. destruct (Nat.eq_dec i k) as [->|N].
        * rewrite (D1 fuel) by lia. exists (Z.of_N c). rewrite app_nth2 by lia. rewrite Lb, Nat.sub_diag. reflexivity.
        * rewrite app_nth1 by lia. apply C; lia. }
  destruct (G (length ts) (le_n _)) as (F & bs & A & B & C). exists F, bs. rewrite firstn_all in A. auto.
Qed.

(** ** the degrees of the terminals *)
Section Scan.
Context (dg : nat -> N).
Fixpoint scan (il : list nat) (st : N * N * nat) : N * N * nat :=
  match il with
  | [] => st
  | i :: il' => let '(mx, sm, mi) := st in scan il' (if (mx <? dg i)%N then (dg i, (sm + dg i)%N, i) else (mx, (sm + dg i)%N, mi))
  end.
Lemma scan_ok il : forall mx sm mi, exists mx' sm' mi', scan il (mx, sm, mi) = (mx', sm', mi') /\ sm' = (sm + sumN dg il)%N /\
  (mx <= mx')%N /\ (forall i, In i il -> (dg i <= mx')%N) /\ ((mx' = mx /\ mi' = mi) \/ (In mi' il /\ mx' = dg mi')).
Proof.
  induction il as [|i il IH]; intros mx sm mi; cbn [scan].
  - exists mx, sm, mi. split; [auto|]. split; [cbn; lia|]. split; [lia|]. split; [intros ? []|auto].
  - destruct (N.ltb_spec mx (dg i)) as [L|L].
    + destruct (IH (dg i) (sm + dg i)%N i) as (mx' & sm' & mi' & E & S & M & A & D). exists mx', sm', mi'. split; [auto|]. split; [cbn [sumN]; lia|]. split; [lia|]. split.
      * intros j [<-|Hj]; auto.
      * right. destruct D as [[-> ->]|[D1 D2]]; [split; [left; auto|auto]|split; [right; auto|auto]].
    + destruct (IH mx (sm + dg i)%N mi) as (mx' & sm' & mi' & E & S & M & A & D). exists mx', sm', mi'. split; [auto|]. split; [cbn [sumN]; lia|]. split; [lia|]. split.
      * intros j [<-|Hj]; auto. lia.
      * destruct D as [D|[D1 D2]]; [auto|right; split; [right; auto|auto]].
Qed.
End Scan.

Lemma deg_scan_ok G maps origs T : at_positions G maps origs T -> forall ts st, (forall t, In t ts -> t_id t < length T) ->
  deg_scan G maps origs ts st = Some (scan (fun i => nth (nth i T 0) (m_deg G) 0%N) (map t_id ts) st).
Proof.
  intros [LT AP]. induction ts as [|t ts IH]; intros st H; cbn [deg_scan map scan]; [reflexivity|].
  assert (Ht : t_id t < length T) by (apply H; left; auto).
  destruct (nth_error origs (t_id t)) as [o|] eqn:E; [|apply nth_error_None in E; lia]. destruct (AP _ _ E) as (o' & -> & ->).
  destruct st as [[mx sm] mi]. rewrite IH by (intros; apply H; right; auto). reflexivity.
Qed.

(** ** partition indices *)
Lemma part_terms_ok G maps : forall origs T l p, at_positions G maps origs T -> (forall t, In t T -> t < m_n G) -> NoDup T -> length p = m_n G ->
  exists p', part_terms G maps l origs p = Some p' /\ length p' = m_n G /\
    (forall i, i < length T -> nth (nth i T 0) p' 0 = l + i) /\ (forall v, ~ In v T -> nth v p' 0 = nth v p 0).
Proof.
  induction origs as [|o origs IH]; intros T l p [LT AP] HT Nd Lp; cbn [part_terms].
  - destruct T; [|discriminate]. exists p. split; [auto|]. split; [auto|]. split; [intros i Hi; cbn in Hi; lia|auto].
  - destruct T as [|v T]; [discriminate|]. destruct (AP 0 o eq_refl) as (o' & -> & E). cbn [nth] in E. rewrite E.
    destruct (Nat.leb_spec (m_n G) v) as [L|L]; [specialize (HT v (or_introl eq_refl)); lia|]. inversion Nd as [|? ? N1 N2]. subst.
    destruct (IH T (S l) (upd p v l)) as (p' & -> & A & B & C).
    + split; [cbn in LT; lia|]. intros j o2 Hj. apply (AP (S j) o2 Hj).
    + intros t Ht. apply HT. right. auto.
    + auto.
    + rewrite upd_length. auto.
    + exists p'. split; [auto|]. split; [auto|]. split.
      * intros [|i] Hi; cbn [nth]; [rewrite C by auto; rewrite nth_upd_eq by lia; lia|]. rewrite B by (cbn in Hi; lia). lia.
      * intros x Hx. rewrite C by (intro; apply Hx; right; auto). apply nth_upd_neq. intro; subst; apply Hx; left; auto.
Qed.

Lemma flag_at_false old v : flag_at old v = false -> exists i, In (v, i, false) old.
Proof.
  unfold flag_at. destruct (find (fun t => t_at t =? v) (rev old)) as [[[p i] b]|] eqn:E; [|discriminate]. intro H. apply find_some in E. destruct E as [A B].
  cbn in B, H. apply Nat.eqb_eq in B. subst. apply in_rev in A. exists i. exact A.
Qed.

(** cut of a single vertex is its degree *)
Lemma degree_cut G v : mvalid G -> v < m_n G -> nth v (m_deg G) 0%N = cutw (m_n G) (wt (adj (m_rows G))) (fun u => u =? v).
Proof.
  intros [V [[DL D] C]] Hv. rewrite (D v Hv). transitivity (bsum (length (m_rows G)) (wt (adj (m_rows G)) v)); [symmetry; apply row_weight; auto|]. rewrite cutw_single by auto. unfold wdeg, m_n.
  apply bsum_ext. intros u Hu. destruct (Nat.eqb_spec u v) as [->|]; [|reflexivity]. apply wt_self; auto.
Qed.

Section Main.
Context (G : mg) (maps : list (list nat)) (origs T : list nat) (KS : kstate G maps origs T).
Let n := m_n G.
Let W := wt (adj (m_rows G)).
Let L := live G T.

Lemma Wsym : symm n W. Proof. apply W_symm. apply (ks_valid _ _ _ _ KS). Qed.
Lemma live_In t : In t L <-> In t T /\ nth t (m_rows G) [] <> [].
Proof.
  unfold L, live. rewrite filter_In, Nat.ltb_lt. split; intros [A B]; split; auto; [intro E; rewrite E in B; cbn in B; lia|].
  destruct (nth t (m_rows G) []); [congruence|cbn; lia].
Qed.

(** blocks that isolate from the terminals with edges isolate from all terminals *)
Lemma live_block s l : In s L -> good_block (m_rows G) L s l -> exists c, min_isolating n W T s (mem l) c.
Proof.
  intros Hs (Nd & R & c & [[A1 A2] [A3 A4]]). exists c. split; [|split; [auto|]].
  - split; [auto|]. intros t Ht Nt. apply mem_out. intro X. destruct (R t X) as [_ [E|[E _]]]; [congruence|]. assert (In t L) by (apply live_In; auto).
    rewrite <- (mem_In l t) in X. rewrite A2 in X by auto. discriminate X.
  - intros S [S1 S2]. apply A4. split; [auto|]. intros t Ht Nt. apply S2; [apply live_In in Ht; tauto|auto].
Qed.

(** an isolated terminal is its own minimum isolating set *)
Lemma dead_single t : In t T -> nth t (m_rows G) [] = [] -> min_isolating n W T t (fun u => u =? t) 0.
Proof.
  intros Ht E. split; [|split; [|intros; lia]].
  - split; [apply Nat.eqb_refl|]. intros x _ N. apply Nat.eqb_neq. auto.
  - apply bsum_zero. intros u Hu. apply bsum_zero. intros v Hv. destruct (Nat.eqb_spec u t) as [->|]; cbn [andb]; [|reflexivity].
    destruct (negb (v =? t)); [|reflexivity]. apply row_nil_wt; [apply (ks_valid _ _ _ _ KS)|auto].
Qed.

Lemma min_iso_ext ts s A B c : (forall v, v < n -> A v = B v) -> (forall t, In t ts -> t < n) -> s < n -> min_isolating n W ts s A c -> min_isolating n W ts s B c.
Proof.
  intros E Ht Hs [[A1 A2] [A3 A4]]. split; [|split; [|auto]].
  - split; [rewrite <- E; auto|]. intros t T1 T2. rewrite <- E by auto. auto.
  - rewrite <- A3. apply cutw_ext. intros u Hu. symmetry. auto.
Qed.

(** the classes of the contraction *)
Section Contr.
Context (lb : list (nat * list nat)) (HB : forall s l, In (s, l) lb -> In s L /\ good_block (m_rows G) L s l) (ND : NoDup (map fst lb)).
Context (SM : forall s, In s L -> ~ In s (map fst lb) -> exists c, min_isolating n W T s (fun u => u =? s) c).
Let db := disjoint_blocks (map as_set lb) (fun _ => false).
Context (g : nat -> nat) (GC : forall u v, u < n -> v < n -> (g u = g v <-> together db u v)).

Lemma db_ok s A : In (s, A) db -> In s T /\ exists c, min_isolating n W T s A c.
Proof.
  intro H. apply (disjoint_ok n W T Wsym (map as_set lb) [] (fun _ => false)) with (s := s) (A := A) in H; auto.
  - cbn. rewrite map_map. cbn. exact ND.
  - intros ? ? [].
  - intros s' A' Q. apply in_map_iff in Q. destruct Q as ([s0 l0] & E & Hl). unfold as_set in E. cbn in E. injection E as <- <-. destruct (HB _ _ Hl) as [X Y].
    split; [apply live_In in X; tauto|]. apply live_block; auto.
Qed.
Lemma db_key s : In s (map fst lb) -> exists A, In (s, A) db.
Proof.
  intro H. assert (In s (map fst db)) by (unfold db; rewrite disjoint_keys, map_map; exact H). apply in_map_iff in H0. destruct H0 as ([s' A] & E & X). cbn in E. subst. exists A. auto.
Qed.
Lemma db_key_inv s A : In (s, A) db -> In s (map fst lb).
Proof. intro H. assert (X : In s (map fst db)) by (apply in_map_iff; exists (s, A); auto). unfold db in X. rewrite disjoint_keys, map_map in X. exact X. Qed.

Lemma class_min t : In t T -> exists c, min_isolating n W T t (fun u => g u =? g t) c.
Proof.
  intro Ht. assert (Hn : t < n) by (apply (ks_lt _ _ _ _ KS); auto).
  assert (TN : forall x, In x T -> x < n) by apply (ks_lt _ _ _ _ KS).
  destruct (in_dec Nat.eq_dec t (map fst lb)) as [I|I].
  - destruct (db_key t I) as [A HA]. destruct (db_ok t A HA) as [_ [c M]]. exists c. apply (min_iso_ext T t A); auto. intros v Hv. apply eq_true_iff_eq. rewrite Nat.eqb_eq, (GC v t Hv Hn).
    destruct M as [[A1 A2] _]. split.
    + intro X. right. exists t, A. auto.
    + intros [->|(s & B & HB' & B1 & B2)]; [auto|]. destruct (Nat.eq_dec s t) as [->|N].
      * destruct (in_dec Nat.eq_dec v [v]) as [_|F]; [|exfalso; apply F; left; auto].
        assert (Q : B = A \/ (B t = true -> A t = false) \/ (A t = true -> B t = false)).
        { pose proof (disjoint_pairs (map as_set lb) (fun _ => false)) as DP. fold db in DP. destruct (ForallOrdPairs_In DP (t, B) (t, A) HB' HA) as [E|[E|E]]; [left; congruence|right; left; apply (E t)|right; right; apply (E t)]. }
        destruct Q as [->|[Q|Q]]; [auto|rewrite Q in A1 by auto; discriminate|rewrite Q in B2 by auto; discriminate].
      * destruct (db_ok s B HB') as [_ [d [[_ D2] _]]]. rewrite D2 in B2 by auto. discriminate.
  - assert (C : exists c, min_isolating n W T t (fun u => u =? t) c).
    { destruct (nth t (m_rows G) []) eqn:E; [exists 0%N; apply dead_single; auto|]. apply SM; auto. apply live_In. split; [auto|congruence]. }
    destruct C as [c M]. exists c. apply (min_iso_ext T t (fun u => u =? t)); auto. intros v Hv. apply eq_true_iff_eq. rewrite !Nat.eqb_eq, (GC v t Hv Hn). split; [intros ->; left; auto|].
    intros [->|(s & B & HB' & B1 & B2)]; [auto|exfalso]. destruct (Nat.eq_dec s t) as [->|N]; [apply I; eapply db_key_inv; eauto|].
    destruct (db_ok s B HB') as [_ [d [[_ D2] _]]]. rewrite D2 in B2 by auto. discriminate.
Qed.

Lemma classes_safe : safe_pairs n W T (together db).
Proof.
  apply blocks_safe; [apply Wsym|apply (ks_nd _ _ _ _ KS)|apply (ks_lt _ _ _ _ KS)|apply db_ok|apply disjoint_pairs].
Qed.
End Contr.
End Main.
