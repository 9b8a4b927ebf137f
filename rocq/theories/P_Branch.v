(* P_Branch.v - branching: deleting edges of a vertex, contracting an edge, deleting terminal edges. *)
From Coq Require Import Permutation.
From Verif Require Import SpecRel P_UnionFind P_Cut P_Mutable P_Mutable4 P_Mutable7 P_MutableIO P_Multi P_Kernel P_KernelC P_Kernel3 P_ContractStd SpecMutable.
From Verif Require Export M_Branch.

Definition tgts (row : list half) : list nat := map (fun h : half => fst (fst h)) row.
Definition simple (R : list (list half)) : Prop := forall v, NoDup (tgts (nth v R [])).

Lemma set_rev_tgts R v e r R' a : set_rev R v e r = Some R' -> tgts (nth a R' []) = tgts (nth a R []).
Proof.
  intro H. apply nth_ext with (d := 0) (d' := 0).
  - unfold set_rev in H. destruct (slot R v e) as [[[t w] r0]|] eqn:S; [|discriminate]. injection H as <-. destruct (slot_lt _ _ _ _ S) as [Hv He].
    unfold tgts. rewrite !map_length. unfold rset. destruct (Nat.eq_dec a v) as [->|N]; [rewrite nth_upd_eq by auto; apply upd_length|rewrite nth_upd_neq by auto; auto].
  - intros i Hi. pose proof (set_rev_tgt R v e r R' a i H) as Q. unfold tgt_of, slot in Q. unfold tgts.
    assert (X : forall l : list half, nth i (map (fun h : half => fst (fst h)) l) 0 = match nth_error l i with Some h => fst (fst h) | None => 0 end).
    { intro l. destruct (nth_error l i) as [h|] eqn:E.
      - apply nth_error_nth. rewrite nth_error_map, E. reflexivity.
      - apply nth_overflow. rewrite map_length. apply nth_error_None. auto. }
    rewrite !X. unfold half in *. destruct (nth_error (nth a R' []) i) as [[[? ?] ?]|], (nth_error (nth a R []) i) as [[[? ?] ?]|]; cbn in *; congruence.
Qed.

Lemma swap_pop {A} (l : list A) e d : S e < length l -> Permutation (nth e l d :: removelast (upd l e (nth (length l - 1) l d))) l.
Proof.
  intro H. assert (NE : l <> []) by (intros ->; cbn in H; lia). destruct (exists_last NE) as (l0 & y & ->). rewrite app_length in *. cbn [length] in *.
  assert (Y : nth (length l0 + 1 - 1) (l0 ++ [y]) d = y) by (rewrite app_nth2 by lia; replace (length l0 + 1 - 1 - length l0) with 0 by lia; reflexivity).
  rewrite Y. rewrite app_nth1 by lia.
  assert (U : upd (l0 ++ [y]) e y = upd l0 e y ++ [y]).
  { clear NE Y. revert e H. induction l0 as [|a l0 IH]; intros e H; [cbn in H; lia|]. destruct e; [reflexivity|]. cbn. rewrite IH by (cbn in H; lia). reflexivity. }
  rewrite U, removelast_last. destruct (nth_split l0 d (n := e)) as (l1 & l2 & E & L); [lia|]. rewrite E at 2 3.
  assert (U2 : upd (l1 ++ nth e l0 d :: l2) e y = l1 ++ y :: l2).
  { clear - L. subst e. generalize (nth (length l1) l0 d). intro z. induction l1 as [|a l1 IH]; [reflexivity|]. cbn. rewrite IH. reflexivity. }
  rewrite U2. apply Permutation_trans with (nth e l0 d :: y :: l1 ++ l2); [apply perm_skip, Permutation_sym, Permutation_middle|].
  apply Permutation_trans with (y :: nth e l0 d :: l1 ++ l2); [apply perm_swap|].
  apply Permutation_trans with (y :: l1 ++ nth e l0 d :: l2); [apply perm_skip, Permutation_middle|apply Permutation_cons_append].
Qed.
Lemma pop_last {A} (l : list A) e d : length l = S e -> Permutation (nth e l d :: removelast l) l.
Proof.
  intro H. assert (NE : l <> []) by (intros ->; cbn in H; lia). destruct (exists_last NE) as (l0 & y & ->). rewrite app_length in H. cbn in H.
  rewrite app_nth2 by lia. replace (e - length l0) with 0 by lia. cbn [nth]. rewrite removelast_last. apply Permutation_cons_append.
Qed.

Lemma idel_tgts R v e R' t w r : slot R v e = Some (t, w, r) -> internal_delete R v e = Some R' ->
  (forall a, a <> v -> tgts (nth a R' []) = tgts (nth a R [])) /\ Permutation (t :: tgts (nth v R' [])) (tgts (nth v R [])).
Proof.
  intros S H. destruct (slot_lt _ _ _ _ S) as [Hv He]. unfold rl in He. unfold slot in S.
  assert (N : nth e (nth v R []) (0, 0%N, 0) = (t, w, r)) by (apply nth_error_nth; exact S).
  unfold internal_delete in H. destruct (Nat.ltb_spec (Datatypes.S e) (length (nth v R []))) as [L|L].
  - split.
    + intros a Na. rewrite (set_rev_tgts _ _ _ _ _ a H). rewrite nth_upd_neq by auto. reflexivity.
    + rewrite (set_rev_tgts _ _ _ _ _ v H). rewrite nth_upd_eq by auto.
      pose proof (swap_pop (nth v R []) e (0, 0%N, 0) L) as P. rewrite N in P. apply (Permutation_map (fun h : half => fst (fst h))) in P. exact P.
  - destruct (length (nth v R []) =? 0) eqn:Z; [discriminate|]. injection H as <-. split.
    + intros a Na. rewrite nth_upd_neq by auto. reflexivity.
    + rewrite nth_upd_eq by auto. pose proof (pop_last (nth v R []) e (0, 0%N, 0) ltac:(lia)) as P. rewrite N in P. apply (Permutation_map (fun h : half => fst (fst h))) in P. exact P.
Qed.

Lemma In_tgts R v t : In t (tgts (nth v R [])) <-> exists b, tgt_of R v b = Some t.
Proof.
  unfold tgts, tgt_of, slot. split.
  - intro H. apply in_map_iff in H. destruct H as (h & <- & Hh). apply In_nth_error in Hh. destruct Hh as [b Hb]. exists b. unfold half in *. rewrite Hb. reflexivity.
  - intros [b Hb]. destruct (nth_error (nth v R []) b) as [h|] eqn:E; [|discriminate]. injection Hb as <-. apply in_map_iff. exists h. split; [auto|]. eapply nth_error_In; eauto.
Qed.

Lemma delete_edge_tgts G v e t w r G' : mvalid G -> slot (m_rows G) v e = Some (t, w, r) -> m_delete_edge G v e = Some G' ->
  Permutation (t :: tgts (nth v (m_rows G') [])) (tgts (nth v (m_rows G) [])) /\
  (simple (m_rows G) -> simple (m_rows G')).
Proof.
  intros MV S E. destruct (delete_edge_idel G v e t w r G' MV S E) as (R1 & E1 & E2).
  destruct (proj1 MV v e t w r S) as (Ht & Nt & SR).
  destruct (idel_tgts _ _ _ _ _ _ _ S E1) as [A1 P1].
  assert (S2 : exists t2 w2 r2, slot R1 t r = Some (t2, w2, r2)).
  { assert (L : r < length (tgts (nth t R1 []))) by (rewrite A1 by auto; unfold tgts; rewrite map_length; apply (slot_lt _ _ _ _ SR)).
    unfold tgts in L. rewrite map_length in L. unfold slot. destruct (nth_error (nth t R1 []) r) as [[[t2 w2] r2]|] eqn:Q; [eauto|]. apply nth_error_None in Q. lia. }
  destruct S2 as (t2 & w2 & r2 & S2). destruct (idel_tgts _ _ _ _ _ _ _ S2 E2) as [A2 P2]. split.
  - rewrite A2 by auto. exact P1.
  - intros SI a. destruct (Nat.eq_dec a t) as [->|Na].
    + specialize (SI t). rewrite <- A1 in SI by auto. apply (Permutation_NoDup (Permutation_sym P2)) in SI. inversion SI. auto.
    + rewrite A2 by auto. destruct (Nat.eq_dec a v) as [->|Nv]; [|rewrite A1 by auto; apply SI].
      specialize (SI v). apply (Permutation_NoDup (Permutation_sym P1)) in SI. inversion SI. auto.
Qed.

(** ** deleting the edges of v to the vertices of P *)
Section VDel.
Context (v n : nat) (P : nat -> bool).

Record vdel (G G' : mg) (w : N) : Prop := {
  v_valid : mvalid G';
  v_n : m_n G' = n;
  v_pos : m_pos G' = m_pos G;
  v_cont : m_cont G' = m_cont G;
  v_part : m_part G' = m_part G;
  v_cut : m_cut G' = m_cut G;
  v_simple : simple (m_rows G) -> simple (m_rows G');
  v_tgt : forall t, P t = false -> (In t (tgts (nth v (m_rows G') [])) <-> In t (tgts (nth v (m_rows G) [])));
  v_sub : forall t, In t (tgts (nth v (m_rows G') [])) -> In t (tgts (nth v (m_rows G) []));
  v_cost : forall f, (forall t, In t (tgts (nth v (m_rows G) [])) -> P t = true -> f v <> f t) -> (mtcost n (wt (adj (m_rows G'))) f + w = mtcost n (wt (adj (m_rows G))) f)%N;
  v_le : forall f, (mtcost n (wt (adj (m_rows G))) f <= mtcost n (wt (adj (m_rows G'))) f + w)%N }.

Lemma vdel_refl G : mvalid G -> m_n G = n -> vdel G G 0.
Proof. intros V N. constructor; auto; [tauto|intros; lia..]. Qed.
Lemma vdel_trans G1 G2 G3 w w' : vdel G1 G2 w -> vdel G2 G3 w' -> vdel G1 G3 (w + w').
Proof.
  intros [A1 A2 A3 A4 A5 A6 A7 A8 AS A9 A10] [B1 B2 B3 B4 B5 B6 B7 B8 BS B9 B10]. constructor; auto; try congruence.
  - intros t Pt. rewrite B8, A8 by auto. tauto.
  - intros f F. rewrite <- (A9 f F), <- (B9 f); [lia|]. intros t Ht. apply F, AS, Ht.
  - intro f. specialize (A10 f). specialize (B10 f). lia.
Qed.

Lemma dcost_same W W' t w f : f v = f t -> wstep W W' n v t w 0 -> dcost n W' f = dcost n W f.
Proof.
  intros E S. apply bsum_ext. intros a Ha. apply bsum_ext. intros b Hb. specialize (S a b Ha Hb).
  destruct (Nat.eqb_spec (f a) (f b)) as [|N]; [reflexivity|].
  destruct ((a =? v) && (b =? t) || (a =? t) && (b =? v)) eqn:Q; [|lia]. exfalso. apply N.
  apply orb_prop in Q. destruct Q as [Q|Q]; apply andb_prop in Q; destruct Q as [Q1 Q2]; apply Nat.eqb_eq in Q1; apply Nat.eqb_eq in Q2; subst; auto.
Qed.

Lemma vdel_one G e t w r : mvalid G -> m_n G = n -> slot (m_rows G) v e = Some (t, w, r) -> P t = true -> exists G', m_delete_edge G v e = Some G' /\ vdel G G' w /\
  rl (m_rows G') v = rl (m_rows G) v - 1 /\ (forall b t', b < e -> tgt_of (m_rows G') v b = Some t' -> tgt_of (m_rows G) v b = Some t').
Proof.
  intros V Hn S Pt. destruct (proj1 V v e t w r S) as (Ht & Nt & SR). destruct (delete_edge_ok G v e t w r V S) as (G' & E & V' & N' & WS & P' & C').
  destruct (delete_edge_tgts G v e t w r G' V S E) as [TG SI]. destruct (delete_edge_rest _ _ _ _ E) as [PT CU].
  exists G'. split; [auto|]. rewrite Hn in WS.
  assert (Hv : v < n) by (rewrite <- Hn; apply (slot_lt _ _ _ _ S)). change (length (m_rows G)) with (m_n G) in Ht. rewrite Hn in Ht.
  assert (S1 : symm n (wt (adj (m_rows G)))) by (rewrite <- Hn; apply W_symm, V).
  assert (S2 : symm n (wt (adj (m_rows G')))) by (rewrite <- Hn, <- N'; apply W_symm, V').
  assert (CO : forall f, f v <> f t -> (mtcost n (wt (adj (m_rows G'))) f + w = mtcost n (wt (adj (m_rows G))) f)%N).
  { intros f F. pose proof (dcost_step n _ _ v t w f Hv Ht ltac:(auto) F WS) as X. rewrite !dcost_half in X by auto. lia. }
  split; [|split].
  - constructor; auto; [congruence| | | |].
    + intros t' Pt'. split; intro I; [eapply Permutation_in; [exact TG|right; auto]|].
      eapply Permutation_in in I; [|apply Permutation_sym, TG]. destruct I as [<-|I]; [congruence|auto].
    + intros t' I. eapply Permutation_in; [exact TG|right; auto].
    + intros f F. apply CO, F; [|auto]. eapply Permutation_in; [exact TG|left; auto].
    + intro f. destruct (Nat.eq_dec (f v) (f t)) as [Q|Q]; [|rewrite <- CO by auto; lia].
      pose proof (dcost_same _ _ t w f Q WS) as X. rewrite !dcost_half in X by auto. lia.
  - apply Permutation_length in TG. unfold tgts in TG. cbn [length] in TG. rewrite !map_length in TG. unfold rl. lia.
  - intros b t' Hb X. destruct (delete_edge_tgt G v e t w r G' V S Nt E v b t' X) as [_ Y]. apply (Y eq_refl). lia.
Qed.

Lemma del_edges_at_ok : forall fuel G w0 e, mvalid G -> m_n G = n -> v < n -> rl (m_rows G) v - e <= fuel ->
  (forall b t, b < e -> tgt_of (m_rows G) v b = Some t -> P t = false) ->
  exists G' w, del_edges_at fuel P v e (G, w0) = Some (G', (w0 + w)%N) /\ vdel G G' w /\ (forall t, In t (tgts (nth v (m_rows G') [])) -> P t = false).
Proof.
  induction fuel as [|fuel IH]; intros G w0 e V Hn Hv Hf HP.
  - assert (E : slot (m_rows G) v e = None) by (unfold slot; apply nth_error_None; unfold rl in Hf; lia). unfold del_edges_at. cbn [fst]. rewrite E.
    exists G, 0%N. rewrite N.add_0_r. split; [auto|]. split; [apply vdel_refl; auto|]. intros t Ht. apply In_tgts in Ht. destruct Ht as [b Hb]. apply (HP b); [|auto].
    unfold tgt_of in Hb. destruct (slot (m_rows G) v b) eqn:Q; [|discriminate]. apply slot_lt in Q. lia.
  - cbn [del_edges_at fst snd]. destruct (slot (m_rows G) v e) as [[[t w] r]|] eqn:S.
    + destruct (P t) eqn:Pt.
      * destruct (vdel_one G e t w r V Hn S Pt) as (G1 & -> & D1 & RL & TB).
        destruct (IH G1 (w0 + w)%N e (v_valid _ _ _ D1) (v_n _ _ _ D1) Hv) as (G2 & w2 & -> & D2 & Z).
        { pose proof (slot_lt _ _ _ _ S). lia. }
        { intros b t' Hb X. apply (HP b); auto. }
        exists G2, (w + w2)%N. split; [f_equal; f_equal; lia|]. split; [eapply vdel_trans; eauto|auto].
      * apply IH; auto; [lia|]. intros b t' Hb X. destruct (Nat.eq_dec b e) as [->|Nb]; [|apply (HP b); [lia|auto]].
        unfold tgt_of in X. rewrite S in X. injection X as <-. auto.
    + exists G, 0%N. rewrite N.add_0_r. split; [auto|]. split; [apply vdel_refl; auto|]. intros t Ht. apply In_tgts in Ht. destruct Ht as [b Hb]. apply (HP b); [|auto].
      unfold tgt_of in Hb. destruct (slot (m_rows G) v b) eqn:Q; [|discriminate]. apply slot_lt in Q. unfold slot in S. apply nth_error_None in S. unfold rl in Q. lia.
Qed.
End VDel.

Lemma vdel_kstate v P G G' w maps origs T : vdel v (m_n G) P G G' w -> kstate G maps origs T -> kstate G' maps origs T.
Proof.
  intros D [A1 A2 A3 A4 A5 A6 A7 A8]. pose proof (v_n _ _ _ _ _ _ D) as N. constructor; auto.
  - apply (v_valid _ _ _ _ _ _ D).
  - rewrite (v_part _ _ _ _ _ _ D), N. auto.
  - rewrite (v_cut _ _ _ _ _ _ D), N. auto.
  - rewrite N, (v_cont _ _ _ _ _ _ D), (v_pos _ _ _ _ _ _ D). auto.
  - rewrite N, (v_cont _ _ _ _ _ _ D). auto.
  - unfold at_positions. rewrite (v_pos _ _ _ _ _ _ D). auto.
  - rewrite N. auto.
Qed.

(** ** deleteTermEdges with setTerminals *)
Definition noterm (R : list (list half)) (T : list nat) : Prop := forall s t, In s T -> In t T -> ~ In t (tgts (nth s R [])).

Theorem finish_terms_ok G maps origs T w0 : kstate G maps origs T ->
  exists G' ts' w, finish_terms maps origs G w0 = Some (G', ts', (w0 + w)%N) /\ kstate G' maps origs T /\ map fst ts' = live G' T /\ m_n G' = m_n G /\
    noterm (m_rows G') T /\
    forall f, separates (m_n G) T f -> (mtcost (m_n G) (wt (adj (m_rows G'))) f + w = mtcost (m_n G) (wt (adj (m_rows G))) f)%N.
Proof.
  intros [A1 A2 A3 A4 A5 A6 A7 A8]. unfold finish_terms. destruct (set_terminals_ok G maps origs T 0 A6 A7) as (L1 & -> & EL1). rewrite EL1.
  assert (LL : forall t, In t (live G T) -> In t T) by (intros t Ht; apply filter_In in Ht; tauto).
  destruct (del_term_edges_ok G (live G T) A1) as (G2 & w & -> & D & Z); [intros; auto|].
  assert (AP2 : at_positions G2 maps origs T) by (unfold at_positions; rewrite (d_pos _ _ _ _ _ D); exact A6).
  assert (LT2 : forall t, In t T -> t < m_n G2) by (intros t Ht; rewrite (d_n _ _ _ _ _ D); auto).
  destruct (set_terminals_ok G2 maps origs T 0 AP2 LT2) as (L2 & -> & EL2).
  exists G2, L2, w. split; [reflexivity|]. split; [|split; [auto|split; [apply (d_n _ _ _ _ _ D)|split]]].
  - constructor; auto.
    + apply (d_valid _ _ _ _ _ D).
    + rewrite (d_part _ _ _ _ _ D), (d_n _ _ _ _ _ D). auto.
    + rewrite (d_cut _ _ _ _ _ D), (d_n _ _ _ _ _ D). auto.
    + rewrite (d_cont _ _ _ _ _ D), (d_n _ _ _ _ _ D), (d_pos _ _ _ _ _ D). auto.
    + rewrite (d_cont _ _ _ _ _ D), (d_n _ _ _ _ _ D). auto.
  - intros s t Hs Ht I. apply In_tgts in I. destruct I as [b I]. pose proof (d_tgt _ _ _ _ _ D s b t I) as [b' I'].
    unfold tgt_of in I'. destruct (slot (m_rows G) s b') as [[[t' w'] r']|] eqn:S; [|discriminate]. cbn in I'. injection I' as ->.
    destruct (proj1 A1 s b' t w' r' S) as (_ & _ & SR).
    assert (LV : forall x y z, In x T -> slot (m_rows G) x y = Some z -> In x (live G T)).
    { intros x y z Hx Hy. apply filter_In. split; [auto|]. apply Nat.ltb_lt. apply slot_lt in Hy. unfold rl in Hy. lia. }
    eapply (Z s t); eauto.
  - intros f F. apply (d_cost _ _ _ _ _ D). intros s t Hs Ht N.
    rewrite (separates_in _ _ _ F A8 s), (separates_in _ _ _ F A8 t) by auto. intro E.
    apply N. rewrite <- (proj1 (idx_nth s T (LL s Hs))), <- (proj1 (idx_nth t T (LL t Ht))), E. reflexivity.
Qed.

(** ** contracting an edge with at most one terminal end *)
Theorem contract_state_pos G v e t w r maps origs T : kstate G maps origs T -> simple (m_rows G) -> slot (m_rows G) v e = Some (t, w, r) -> ~ (In v T /\ In t T) ->
  exists G' g, contract_edge_std G v e = Some G' /\ kstate G' maps origs (map g T) /\
    (forall f', separates (m_n G') (map g T) f' -> separates (m_n G) T (fun u => f' (g u)) /\ f' (g v) = f' (g t) /\
       mtcost (m_n G') (wt (adj (m_rows G'))) f' = mtcost (m_n G) (wt (adj (m_rows G))) (fun u => f' (g u))) /\
    (forall f, separates (m_n G) T f -> f v = f t -> exists f', separates (m_n G') (map g T) f' /\
       mtcost (m_n G') (wt (adj (m_rows G'))) f' = mtcost (m_n G) (wt (adj (m_rows G))) f) /\
    length (m_pos G') = length (m_pos G) /\ (forall x, x < length (m_pos G) -> nth x (m_pos G') 0 = g (nth x (m_pos G) 0)) /\ (forall p, p < m_n G -> g p < m_n G').
Proof.
  intros [A1 A2 A3 A4 A5 A6 A7 A8] SI S NB.
  destruct (contract_edge_std_ok G v e t w r A1 A2 A3 S) as (G' & g & E & V' & N' & P' & C' & CL & MG & CT & GR).
  { specialize (SI (Nat.max v t)). rewrite adj_nth, map_map. unfold tgts in SI. exact SI. }
  destruct (GR A4) as (GE & LP & PS). exists G', g. split; [auto|].
  destruct (proj1 A1 v e t w r S) as (Ht & Nt & SR). assert (Hv : v < m_n G) by apply (slot_lt _ _ _ _ S). change (length (m_rows G)) with (m_n G) in Ht.
  assert (EQ : g v = g t) by (apply MG; auto).
  assert (INJ : forall x y, x < m_n G -> y < m_n G -> g x = g y -> x = y \/ ((x = v \/ x = t) /\ (y = v \/ y = t))) by (intros x y Hx Hy Q; apply MG in Q; auto).
  assert (S1 : symm (m_n G) (wt (adj (m_rows G)))) by apply W_symm, A1.
  assert (S2 : symm (m_n G') (wt (adj (m_rows G')))) by apply W_symm, V'.
  assert (CC : forall f', mtcost (m_n G') (wt (adj (m_rows G'))) f' = mtcost (m_n G) (wt (adj (m_rows G))) (fun u => f' (g u))) by (intro f'; apply contraction_cost; auto; apply CL).
  split; [|split; [|split; [|split; [exact LP|split; [exact PS|apply CL]]]]].
  - constructor; auto.
    + intros p Hp Q. destruct (proj2 CL p Hp) as (q & Hq & <-). destruct (nth q (m_cont G) []) as [|x l] eqn:Qx; [apply (A5 q Hq Qx)|].
      assert (X : In x (nth q (m_cont G) [])) by (rewrite Qx; left; auto). apply (proj2 A4 q x Hq) in X. destruct X as [X1 X2].
      assert (Y : In x (nth (g q) (m_cont G') [])) by (apply (proj2 GE (g q) x Hp); split; [lia|]; rewrite PS by auto; rewrite X2; auto).
      rewrite Q in Y. contradiction.
    + destruct A6 as [LT AP]. split; [rewrite map_length; auto|]. intros i o Ho. destruct (AP i o Ho) as (o' & M & Eo). exists o'. split; [auto|].
      assert (Ho' : o' < length (m_pos G)) by (apply nth_error_Some; rewrite Eo; discriminate).
      rewrite (nth_error_nth' (m_pos G') 0) by lia. f_equal. rewrite PS by auto. rewrite (nth_indep (map g T) 0 (g 0)).
      * rewrite map_nth. f_equal. apply nth_error_nth with (d := 0) in Eo. auto.
      * rewrite map_length, LT. apply nth_error_Some. rewrite Ho. discriminate.
    + intros x Hx. apply in_map_iff in Hx. destruct Hx as (y & <- & Hy). apply CL. auto.
    + apply (NoDup_nth (map g T) 0). rewrite map_length. intros i j Hi Hj Q.
      rewrite !(nth_indep (map g T) 0 (g 0)), !map_nth in Q by (rewrite map_length; auto).
      pose proof (nth_In T 0 Hi) as Ii. pose proof (nth_In T 0 Hj) as Ij.
      apply (proj1 (NoDup_nth T 0) A8); auto. apply INJ in Q; auto. destruct Q as [Q|[[Q1|Q1] [Q2|Q2]]]; auto; try congruence; exfalso; apply NB; rewrite Q1 in Ii; rewrite Q2 in Ij; auto.
  - intros f' [A B]. rewrite map_length in *. split; [|split; [congruence|apply CC]]. split; [intros u Hu; apply A, CL; auto|].
    intros i Hi. rewrite <- (B i Hi) at 2. rewrite (nth_indep (map g T) 0 (g 0)) by (rewrite map_length; auto). rewrite map_nth. reflexivity.
  - intros f [A B] Q. destruct (push_down (m_n G) g (m_n G') f CL) as [f' Ef].
    { intros x y Hx Hy Qg. apply INJ in Qg; auto. destruct Qg as [->|[[-> | ->] [-> | ->]]]; auto. }
    exists f'. split.
    + split; rewrite map_length.
      * intros x Hx. destruct (proj2 CL x Hx) as [u [Hu <-]]. rewrite Ef by auto. auto.
      * intros i Hi. rewrite (nth_indep (map g T) 0 (g 0)) by (rewrite map_length; auto). rewrite map_nth, Ef; [auto|]. apply A7, nth_In. auto.
    + rewrite CC. apply mtcost_ext; auto.
Qed.

Theorem contract_state G v e t w r maps origs T : kstate G maps origs T -> simple (m_rows G) -> slot (m_rows G) v e = Some (t, w, r) -> ~ (In v T /\ In t T) ->
  exists G' g, contract_edge_std G v e = Some G' /\ kstate G' maps origs (map g T) /\
    (forall f', separates (m_n G') (map g T) f' -> separates (m_n G) T (fun u => f' (g u)) /\ f' (g v) = f' (g t) /\
       mtcost (m_n G') (wt (adj (m_rows G'))) f' = mtcost (m_n G) (wt (adj (m_rows G))) (fun u => f' (g u))) /\
    (forall f, separates (m_n G) T f -> f v = f t -> exists f', separates (m_n G') (map g T) f' /\
       mtcost (m_n G') (wt (adj (m_rows G'))) f' = mtcost (m_n G) (wt (adj (m_rows G))) f).
Proof.
  intros KS SI S NB. destruct (contract_state_pos G v e t w r maps origs T KS SI S NB) as (G' & g & A & B & C & D & _). exists G', g. auto.
Qed.
