(* P_AllMincuts.v - proofs about findAllMincuts, part 1: what a contraction step loses, and how setVertexLocations restores it. *)
From Verif Require Import SpecRel SpecCut SpecHier SpecPR SpecDyn SpecMutable M_UnionFind P_UnionFind M_Mutable P_Mutable P_Cut P_Contract P_Hier P_PR M_Noi M_AllMincuts P_LocalSearch2 Prop_MutableIO.

Definition hcut (H : graph) (S : nat -> bool) : N := cutw (length H) (wt H) S.

(** in a list of leaf edges es no leaf occurs twice, and no leaf is the neighbour of a leaf *)
Definition leaves_ok (n : nat) (es : list (nat * nat)) : Prop :=
  NoDup (map fst es) /\ forall v t, In (v, t) es -> v < n /\ t < n /\ v <> t /\ ~ In t (map fst es).
(** the cuts of value c that separate v and t have v alone on one side *)
Definition lone (H : graph) (c : N) (v t : nat) : Prop :=
  hcut H (fun x => x =? v) = c /\ forall S, proper (length H) S -> hcut H S = c -> S v <> S t -> forall x, x < length H -> x <> v -> S x = S t.
Definition agree (es : list (nat * nat)) (S : nat -> bool) : Prop := forall v t, In (v, t) es -> S v = S t.

(** H' is H contracted along m, and exactly the singletons of the leaves in es get lost *)
Record step (c : N) (H : graph) (es : list (nat * nat)) (m : list nat) (H' : graph) : Prop := mk_step {
  st_len : length m = length H;
  st_u : undirected H';
  st_np : noparallel H';
  st_cl : clustering (length H) (fun v => nth v m 0) (length H');
  st_ct : contraction_of (length H) (wt H) (fun v => nth v m 0) (length H') (wt H');
  st_es : leaves_ok (length H) es;
  st_lone : forall v t, In (v, t) es -> lone H c v t /\ nth v m 0 = nth t m 0;
  st_const : forall S, proper (length H) S -> hcut H S = c -> agree es S ->
    forall a b, a < length H -> b < length H -> nth a m 0 = nth b m 0 -> S a = S b }.

(** the rounds of the loop; the flag says whether a new round may start *)
Inductive chain (c : N) (G0 : graph) : list (list nat) -> list (nat * list (nat * nat)) -> graph -> bool -> Prop :=
| ch_nil : chain c G0 [] [] G0 true
| ch_rec maps ge H es m H' : chain c G0 maps ge H true -> step c H es m H' -> chain c G0 (maps ++ [m]) (ge ++ [(length maps, es)]) H' true
| ch_none maps ge H : chain c G0 maps ge H true -> chain c G0 maps (ge ++ [(length maps, [])]) H false
| ch_pr maps ge H b m H' : chain c G0 maps ge H b -> step c H [] m H' -> chain c G0 (maps ++ [m]) ge H' true.

Lemma chain_ids c G0 maps ge H b : chain c G0 maps ge H b -> forall g es, In (g, es) ge -> if b then g < length maps else g <= length maps.
Proof.
  induction 1 as [|maps ge H es0 m H' Ch IH St|maps ge H Ch IH|maps ge H b m H' Ch IH St]; intros g es I; [contradiction| | |].
  - rewrite app_length. cbn. apply in_app_or in I. destruct I as [I|[I|[]]]; [specialize (IH g es I); cbn in IH; lia|injection I as <- _; lia].
  - apply in_app_or in I. destruct I as [I|[I|[]]]; [specialize (IH g es I); cbn in IH; lia|injection I as <- _; lia].
  - rewrite app_length. cbn. specialize (IH g es I). destruct b; lia.
Qed.
Lemma chain_hier c G0 maps ge H b : chain c G0 maps ge H b -> hier G0 maps H.
Proof.
  induction 1 as [|maps ge H es0 m H' Ch IH St|maps ge H Ch IH|maps ge H b m H' Ch IH St]; [constructor| |auto|]; destruct St; econstructor; eauto.
Qed.
Lemma chain_nomaps c G0 maps ge H b : chain c G0 maps ge H b -> length maps = 0 -> H = G0.
Proof.
  induction 1 as [|maps ge H es0 m H' Ch IH St|maps ge H Ch IH|maps ge H b m H' Ch IH St]; auto; rewrite app_length; cbn; intros; lia.
Qed.

(** the leaf lemma *)
Lemma leaf_lone H c v t : undirected H -> (0 < c)%N -> (forall S, proper (length H) S -> (c <= hcut H S)%N) ->
  v < length H -> nth v H [] = [(t, c)] -> lone H c v t.
Proof.
  intros U Pc Mn Hv Row. pose proof (proj1 U v t c) as B. rewrite Row in B. destruct (B (or_introl eq_refl)) as [Ht Nt]. clear B.
  assert (Lf : loopfree (length H) (wt H)).
  { intros u Hu. unfold wt. apply sumN_zero. intros [x w] I. apply filter_In in I. destruct I as [I E]. cbn in E. apply Nat.eqb_eq in E. subst x. destruct (proj1 U u u w I). congruence. }
  assert (Dv : bsum (length H) (wt H v) = c). { change (bsum (length H) (fun x => wt H v x) = c). rewrite <- wt_deg by auto. unfold deg. rewrite Row. cbn. lia. }
  assert (Wt : wt H v t = c). { unfold wt. rewrite Row. cbn. rewrite Nat.eqb_refl. cbn. lia. }
  assert (K : forall S, proper (length H) S -> hcut H S = c -> S v = true -> S t = false -> forall x, x < length H -> x <> v -> S x = S t).
  { intros S P E Sv St x Hx Nx. destruct (proper_without (length H) S v Hv Sv P) as [P'|A].
    - exfalso. pose proof (Mn _ P') as L. assert (hcut H (without S v) < hcut H S)%N; [|lia].
      apply (move_lt _ _ _ _ c (proj2 U) Lf Hv Sv); [|lia].
      rewrite <- Wt. apply into_one; auto. rewrite St. reflexivity.
    - rewrite St. rewrite (A x Hx). apply Nat.eqb_neq. auto. }
  split.
  - unfold hcut. rewrite <- deg_cut by auto. unfold deg. rewrite Row. cbn. lia.
  - intros S P E D x Hx Nx. destruct (S v) eqn:Sv, (S t) eqn:St; try congruence.
    + rewrite <- St. apply (K S); auto.
    + assert (Q : negb (S x) = negb (S t)); [|destruct (S x), (S t); cbn in Q; congruence].
      apply (K (fun y => negb (S y))); auto; [apply proper_compl; auto| |rewrite Sv; reflexivity|rewrite St; reflexivity].
      unfold hcut in *. rewrite cutw_compl; auto. apply U.
Qed.

(** * restoring *)
(** the cactus C with the positions P of the n vertices of the current graph *)
Definition shape (C : mg) (n : nat) (P : list nat) : Prop :=
  mvalid C /\ m_last C = m_n C /\ length (m_cont C) = m_n C /\ (forall p, p < m_n C -> nth p (m_cont C) [] = []) /\ length P = n /\ forall x, x < n -> nth x P 0 < m_n C.
Definition pat (P : list nat) (f : nat -> bool) (x : nat) : bool := f (nth x P 0).
(** C stands for the cuts of value c of H that satisfy F *)
Definition rep (c : N) (H : graph) (F : (nat -> bool) -> Prop) (C : mg) (P : list nat) : Prop :=
  (forall f, proper (m_n C) f -> (c <= gcut C f)%N) /\
  (forall f, proper (m_n C) f -> gcut C f = c -> proper (length H) (pat P f) /\ hcut H (pat P f) = c) /\
  (forall S, proper (length H) S -> hcut H S = c -> F S -> exists f, gcut C f = c /\ forall x, x < length H -> pat P f x = S x).

Lemma compose_ok n' (P : list nat) : length P = n' -> forall m, (forall x, In x m -> x < n') -> compose m P = Some (map (fun x => nth x P 0) m).
Proof.
  intros L. induction m as [|x m IH]; intros B; cbn [compose map]; auto.
  rewrite (nth_error_nth' P 0) by (rewrite L; apply B; left; auto). rewrite IH; auto. intros y Hy. apply B. right. auto.
Qed.
Lemma nth_map_in {A B} (f : A -> B) l i d d' : i < length l -> nth i (map f l) d = f (nth i l d').
Proof. intros H. rewrite (nth_indep _ d (f d')) by (rewrite map_length; auto). apply map_nth. Qed.

Lemma compose_step c w H es m H' C P : step c H es m H' -> shape C (length H') P -> (w = c -> rep c H' (fun _ => True) C P) ->
  exists P', compose m P = Some P' /\ shape C (length H) P' /\ (forall v t, In (v, t) es -> nth v P' 0 = nth t P' 0) /\ (w = c -> rep c H (agree es) C P').
Proof.
  intros [Lm U' NP Cl Ct Le Lo Co] (V & ML & LC & CE & LP & BP) R.
  assert (Bm : forall x, In x m -> x < length H').
  { intros x I. destruct (In_nth _ _ 0 I) as [i [Hi Ei]]. rewrite <- Ei. apply Cl. lia. }
  exists (map (fun x => nth x P 0) m). rewrite (compose_ok (length H') P LP m Bm). split; [auto|].
  assert (NP' : forall x, x < length H -> nth x (map (fun y => nth y P 0) m) 0 = nth (nth x m 0) P 0).
  { intros x Hx. apply (nth_map_in (fun y => nth y P 0)). lia. }
  split; [|split].
  - split; [auto|]. split; [auto|]. split; [auto|]. split; [auto|]. split; [rewrite map_length; auto|]. intros x Hx. rewrite NP' by auto. apply BP, Cl; auto.
  - intros v t I. destruct Le as [_ Le]. destruct (Le v t I) as (Hv & Ht & _). rewrite !NP' by auto. f_equal. apply Lo; auto.
  - intros Ew. destruct (R Ew) as (R1 & R2 & R3). split; [auto|]. split.
    + intros f Pf Ef. destruct (R2 f Pf Ef) as [A B]. split.
      * eapply proper_ext; [|apply (proper_pull _ _ _ _ Cl A)]. intros x Hx. unfold pat. rewrite NP' by auto. reflexivity.
      * rewrite <- B. unfold hcut. rewrite (contraction_cut _ _ _ _ _ (pat P f) (proj1 Cl) Ct). apply cutw_ext. intros x Hx. unfold pat. rewrite NP' by auto. reflexivity.
    + intros S PS ES AS. destruct (descend _ _ _ S Cl) as [S' HS]. { intros a b Ha Hb E. apply (Co S PS ES AS); auto. }
      destruct (R3 S') as (f & Ef & Hf).
      * apply (proper_push _ _ _ _ _ Cl HS PS).
      * unfold hcut. rewrite (contraction_cut _ _ _ _ _ S' (proj1 Cl) Ct). rewrite <- ES. apply cutw_ext. auto.
      * exact I.
      * exists f. split; [auto|]. intros x Hx. unfold pat. rewrite NP' by auto. rewrite <- HS by auto. apply Hf. apply Cl; auto.
Qed.

(** a new vertex with one edge *)
Lemma empty_node C : mvalid C -> m_last C = m_n C -> length (m_cont C) = m_n C -> (forall p, p < m_n C -> nth p (m_cont C) [] = []) ->
  let C' := new_empty_node C in mvalid C' /\ m_n C' = S (m_n C) /\ m_last C' = m_n C' /\ length (m_cont C') = m_n C' /\ (forall p, p < m_n C' -> nth p (m_cont C') [] = []) /\
   m_pos C' = m_pos C /\ forall f, gcut C' f = gcut C f.
Proof.
  intros V L LC CE C'.
  set (C0 := mk_mg (m_rows C) (m_deg C) (m_part C) (m_cut C) [] (m_cont C) (m_last C) (m_ne C) (m_pc C) (m_orig C)).
  destruct (C50_new_empty_node_partial C0) as (A1 & A2 & A3 & _ & A4 & A5 & A6); auto.
  - intros x Hx. cbn in Hx. lia.
  - split; [cbn; fold (m_n C); unfold m_n; cbn; fold (m_n C); lia|]. intros p x Hp. change (m_n C0) with (m_n C) in Hp. cbn [C0 m_cont m_pos]. rewrite CE by auto. cbn. split; [tauto|lia].
  - assert (E : new_empty_node C0 = mk_mg (m_rows C') (m_deg C') (m_part C') (m_cut C') [] (m_cont C') (m_last C') (m_ne C') (m_pc C') (m_orig C')).
    { unfold C', new_empty_node. change (m_n C0) with (m_n C). change (m_last C0) with (m_last C). destruct (m_last C =? m_n C); reflexivity. }
    rewrite E in *. change (m_n C0) with (m_n C) in *.
    assert (N' : m_n C' = S (m_n C)) by exact A2.
    assert (CE' : forall p, p < m_n C' -> nth p (m_cont C') [] = []).
    { intros p Hp. destruct A4 as [_ A4]. cbn [m_cont m_pos] in A4. destruct (nth p (m_cont C') []) as [|y l] eqn:Q; auto. exfalso.
      specialize (A4 p y Hp). rewrite Q in A4. destruct (proj1 A4 (or_introl eq_refl)). cbn in *. lia. }
    split; [exact A1|]. split; [exact N'|]. split; [exact A5|]. split; [exact A6|]. split; [exact CE'|].
    split. { unfold C', new_empty_node. destruct (_ =? _); reflexivity. }
    intro f. unfold gcut. rewrite N'. unfold cutw. rewrite bsum_S.
    assert (Z : forall a, m_n C <= a -> forall b, wt (adj (m_rows C)) a b = 0%N).
    { intros a Ha b. unfold wt. rewrite nth_overflow; [reflexivity|]. unfold adj. rewrite map_length. exact Ha. }
    assert (Z2 : forall a, wt (adj (m_rows C)) a (m_n C) = 0%N).
    { intros a. unfold wt. apply sumN_zero. intros [x w] I. apply filter_In in I. destruct I as [I E']. cbn in E'. apply Nat.eqb_eq in E'. subst x.
      rewrite adj_nth in I. apply in_map_iff in I. destruct I as [[[x w'] r] [Ex Ix]]. cbn in Ex. injection Ex as -> ->.
      destruct (In_nth _ _ (0, 0%N, 0) Ix) as [e [He Ee]]. destruct V as [V _]. assert (Q : nth_error (nth a (m_rows C) []) e = Some (m_n C, w, r)) by (rewrite <- Ee; apply nth_error_nth'; auto).
      destruct (V a e (m_n C) w r Q) as [X _]. unfold m_n in X. lia. }
    change (m_rows (mk_mg (m_rows C') (m_deg C') (m_part C') (m_cut C') [] (m_cont C') (m_last C') (m_ne C') (m_pc C') (m_orig C'))) with (m_rows C') in A3. change (m_rows C0) with (m_rows C) in A3.
    rewrite (bsum_zero (S (m_n C))). 2:{ intros b Hb. rewrite A3, Z by lia. destruct (_ && _); auto. }
    rewrite N.add_0_r. apply bsum_ext. intros a Ha. rewrite bsum_S. rewrite A3, Z2. rewrite (bsum_ext _ _ (fun v => if f a && negb (f v) then wt (adj (m_rows C)) a v else 0%N)) by (intros; rewrite A3; auto).
    destruct (_ && _); lia.
Qed.

Lemma order_fields C s t w C' : new_edge_order C s t w = Some C' -> m_cont C' = m_cont C /\ m_last C' = m_last C /\ m_pos C' = m_pos C.
Proof.
  unfold new_edge_order, m_new_edge. intro E. destruct (s <? t).
  - destruct (t <? m_n C); [|discriminate E]. injection E as <-. auto.
  - destruct (t <? s).
    + destruct (s <? m_n C); [|discriminate E]. injection E as <-. auto.
    + injection E as <-. auto.
Qed.
Lemma gcut_ext C f g : (forall x, x < m_n C -> f x = g x) -> gcut C f = gcut C g.
Proof. intros. unfold gcut. apply cutw_ext. auto. Qed.
Lemma gcut_const C f b : (forall x, x < m_n C -> f x = b) -> gcut C f = 0%N.
Proof. intros E. unfold gcut, cutw. apply bsum_zero. intros u Hu. apply bsum_zero. intros v Hv. rewrite (E u Hu), (E v Hv). destruct b; reflexivity. Qed.
Lemma proper_dec n f : {proper n f} + {exists b, forall x, x < n -> f x = b}.
Proof.
  destruct (existsb f (seq 0 n)) eqn:A; [destruct (existsb (fun x => negb (f x)) (seq 0 n)) eqn:B|].
  - left. apply existsb_exists in A, B. destruct A as [x [Hx Ex]], B as [y [Hy Ey]]. apply in_seq in Hx, Hy. apply negb_true_iff in Ey. split; [exists x|exists y]; split; auto; lia.
  - right. exists true. intros x Hx. destruct (f x) eqn:E; auto. assert (existsb (fun x => negb (f x)) (seq 0 n) = true); [|congruence].
    apply existsb_exists. exists x. rewrite E. split; auto. apply in_seq. lia.
  - right. exists false. intros x Hx. destruct (f x) eqn:E; auto. assert (existsb f (seq 0 n) = true); [|congruence].
    apply existsb_exists. exists x. split; auto. apply in_seq. lia.
Qed.

Lemma leaf_step c w H e es C P : (0 < c)%N -> undirected H -> 2 <= length H -> shape C (length H) P -> leaves_ok (length H) (e :: es) ->
  (forall v t, In (v, t) (e :: es) -> lone H c v t /\ nth v P 0 = nth t P 0) -> (w = c -> rep c H (agree (e :: es)) C P) ->
  exists C' P', loc_leaf w (C, P) e = Some (C', P') /\ m_pos C' = m_pos C /\ shape C' (length H) P' /\ (forall v t, In (v, t) es -> lone H c v t /\ nth v P' 0 = nth t P' 0) /\
    (w = c -> rep c H (agree es) C' P').
Proof.
  intros Pc U L2 (V & ML & LC & CE & LP & BP) [ND Le] Lo R. destruct e as [v t]. unfold loc_leaf. cbn [fst snd].
  destruct (Le v t (or_introl eq_refl)) as (Hv & Ht & Nvt & Nin). destruct (Lo v t (or_introl eq_refl)) as [[Lc La] Evt].
  rewrite (nth_error_nth' P 0) by lia. rewrite (nth_error_nth' P 0) by lia.
  destruct (empty_node C V ML LC CE) as (V1 & N1 & L1 & LC1 & CE1 & P1 & Cut1).
  set (q := nth t P 0) in *. assert (Hq : q < m_n C) by (apply BP; auto).
  set (u := m_n C) in *.
  destruct (order_cut (new_empty_node C) (m_last C) q w V1 ltac:(lia) ltac:(lia) ltac:(lia)) as (C' & E' & V' & N' & Cut').
  rewrite ML in *. rewrite E'. destruct (order_fields _ _ _ _ _ E') as (F1 & F2 & F3). exists C', (upd P v u). split; [auto|].
  assert (Cut : forall f, gcut C' f = (gcut C f + dif f u q w)%N) by (intros; rewrite Cut', Cut1; auto).
  assert (NU : forall x, x < length H -> nth x (upd P v u) 0 = if x =? v then u else nth x P 0).
  { intros x Hx. destruct (Nat.eqb_spec x v) as [Q|Q]; [rewrite Q; apply nth_upd_eq; lia|apply nth_upd_neq; auto]. }
  assert (NM : m_n C' = S u) by lia.
  split; [congruence|]. split; [|split].
  - split; [auto|]. split; [lia|]. split; [rewrite F1; lia|]. split; [intros p Hp; rewrite F1; apply CE1; lia|]. split; [rewrite upd_length; auto|].
    intros x Hx. rewrite NU by auto. destruct (x =? v); [lia|]. specialize (BP x Hx). lia.
  - intros v' t' I. destruct (Lo v' t' (or_intror I)) as [A B]. split; [exact A|]. destruct (Le v' t' (or_intror I)) as (Hv' & Ht' & _ & Ni).
    rewrite !NU by auto. cbn in ND, Ni. apply NoDup_cons_iff in ND. destruct ND as [ND _].
    destruct (Nat.eqb_spec v' v) as [Q|_]; [exfalso; apply ND; rewrite <- Q; apply (in_map fst _ _ I)|].
    destruct (Nat.eqb_spec t' v) as [Q|_]; [exfalso; apply Ni; left; auto|]. exact B.
  - intro Ew. destruct (R Ew) as (R1 & R2 & R3). rewrite Ew in *. clear R w Ew E'.
    assert (Const : forall f b, (forall x, x < u -> f x = b) -> forall x, x < length H -> pat (upd P v u) f x = if x =? v then f u else b).
    { intros f b Eb x Hx. unfold pat. rewrite NU by auto. destruct (x =? v); auto. }
    assert (Sub : forall f, proper (S u) f -> proper u f \/ exists b, (forall x, x < u -> f x = b) /\ f u = negb b).
    { intros f Pf. destruct (proper_dec u f) as [|[b Eb]]; [auto|]. right. exists b. split; [auto|].
      destruct (Bool.bool_dec (f u) b) as [Q|Q]; [exfalso|destruct (f u), b; cbn; congruence].
      assert (A : forall x, x < S u -> f x = b) by (intros x Hx; destruct (Nat.eq_dec x u) as [->|]; [auto|apply Eb; lia]).
      destruct Pf as [[x [Hx Ex]] [y [Hy Ey]]]. rewrite A in Ex, Ey by auto. congruence. }
    unfold rep. rewrite NM. split; [|split].
    + intros f Pf. rewrite Cut. destruct (Sub f Pf) as [Q|(b & Eb & Fu)]; [specialize (R1 f Q); lia|].
      unfold dif. rewrite (Eb q Hq), Fu. destruct b; cbn; lia.
    + intros f Pf Ef. rewrite Cut in Ef. destruct (Sub f Pf) as [Q|(b & Eb & Fu)].
      * pose proof (R1 f Q) as L. unfold dif in Ef. destruct (Bool.eqb (f u) (f q)) eqn:Eq; [|lia]. apply Bool.eqb_prop in Eq. rewrite N.add_0_r in Ef.
        destruct (R2 f Q Ef) as [A B]. assert (X : forall x, x < length H -> pat P f x = pat (upd P v u) f x).
        { intros x Hx. unfold pat. rewrite NU by auto. destruct (Nat.eqb_spec x v) as [Qx|]; [|auto]. rewrite Qx, Evt. fold q. congruence. }
        split; [apply (proper_ext _ _ _ X A)|]. rewrite <- B. apply cutw_ext. intros x Hx. symmetry. auto.
      * assert (X : forall x, x < length H -> pat (upd P v u) f x = if b then negb (x =? v) else (x =? v)).
        { intros x Hx. rewrite (Const f b Eb x Hx), Fu. destruct (x =? v), b; reflexivity. }
        pose proof (proper_single (length H) v L2 Hv) as Ps. destruct b.
        -- split; [eapply proper_ext; [|apply (proper_compl _ _ Ps)]; intros x Hx; rewrite X by auto; reflexivity|].
           unfold hcut in *. rewrite <- Lc. rewrite <- (cutw_compl (length H) (wt H) (fun x => x =? v)) by apply U. apply cutw_ext. auto.
        -- split; [eapply proper_ext; [|apply Ps]; intros x Hx; rewrite X by auto; reflexivity|]. rewrite <- Lc. apply cutw_ext. auto.
    + intros S PS ES AS. destruct (Bool.bool_dec (S v) (S t)) as [Q|Q].
      * destruct (R3 S PS ES) as (f & Ef & Hf). { intros v' t' [I|I]; [injection I as <- <-; auto|apply AS; auto]. }
        exists (fun x => if x =? u then S v else f x). split.
        -- rewrite Cut. unfold dif. rewrite Nat.eqb_refl. destruct (Nat.eqb_spec q u); [lia|].
           assert (Eq : f q = S t) by (apply (Hf t Ht)). rewrite Eq, <- Q, Bool.eqb_reflx, N.add_0_r. rewrite <- Ef. apply gcut_ext. intros x Hx. destruct (Nat.eqb_spec x u); [unfold u in *; lia|auto].
        -- intros x Hx. unfold pat. rewrite NU by auto. destruct (Nat.eqb_spec x v) as [Qx|Qx]; [rewrite Nat.eqb_refl, Qx; auto|].
           specialize (BP x Hx). destruct (Nat.eqb_spec (nth x P 0) u); [lia|]. apply Hf; auto.
      * pose proof (La S PS ES Q) as A. exists (fun x => if x =? u then S v else S t). split.
        -- rewrite Cut. rewrite (gcut_const C _ (S t)). 2:{ intros x Hx. destruct (Nat.eqb_spec x u); [unfold u in *; lia|auto]. }
           unfold dif. rewrite Nat.eqb_refl. destruct (Nat.eqb_spec q u); [lia|]. destruct (Bool.eqb (S v) (S t)) eqn:Z; [apply Bool.eqb_prop in Z; congruence|lia].
        -- intros x Hx. unfold pat. rewrite NU by auto. destruct (Nat.eqb_spec x v) as [Qx|Qx]; [rewrite Nat.eqb_refl, Qx; auto|].
           specialize (BP x Hx). destruct (Nat.eqb_spec (nth x P 0) u); [lia|]. symmetry. apply A; auto.
Qed.

Lemma leaves_step c w H : (0 < c)%N -> undirected H -> forall es C P, shape C (length H) P -> leaves_ok (length H) es ->
  (forall v t, In (v, t) es -> lone H c v t /\ nth v P 0 = nth t P 0) -> (w = c -> rep c H (agree es) C P) ->
  exists C' P', loc_leaves w es (C, P) = Some (C', P') /\ m_pos C' = m_pos C /\ shape C' (length H) P' /\ (w = c -> rep c H (fun _ => True) C' P').
Proof.
  intros Pc U. induction es as [|e es IH]; intros C P Sh Lo La R; cbn [loc_leaves].
  - exists C, P. split; [auto|]. split; [auto|]. split; [auto|]. intro Ew. destruct (R Ew) as (A & B & D). split; [auto|]. split; [auto|]. intros S PS ES _. apply D; auto. intros v t [].
  - assert (L2 : 2 <= length H). { destruct e as [v t]. destruct Lo as [_ Lo]. destruct (Lo v t (or_introl eq_refl)) as (A & B & D & _). lia. }
    destruct (leaf_step c w H e es C P Pc U L2 Sh Lo La R) as (C1 & P1 & E1 & M1 & Sh1 & La1 & R1). rewrite E1.
    destruct (IH C1 P1 Sh1) as (C2 & P2 & E2 & M2 & Sh2 & R2); auto.
    { destruct Lo as [ND Lo]. cbn in ND. apply NoDup_cons_iff in ND. split; [apply ND|]. intros v t I. destruct (Lo v t (or_intror I)) as (A & B & D & F). repeat split; auto. intro Z. apply F. right. auto. }
    exists C2, P2. split; [auto|]. split; [congruence|]. auto.
Qed.

Definition down (w : N) (rmaps : list (list nat)) (rge : list (nat * list (nat * nat))) (st : mg * list nat) : option (mg * list nat) :=
  match rmaps with
  | [] => Some st
  | m :: rmaps' => match compose m (snd st) with Some P' => locate w rmaps' rge (fst st, P') | None => None end
  end.
Lemma locate_down w rmaps rge C P : (forall g es, In (g, es) rge -> g < length rmaps) -> locate w rmaps rge (C, P) = down w rmaps rge (C, P).
Proof.
  intros B. destruct rmaps, rge as [|[g es] rge]; cbn [locate]; try reflexivity.
  - specialize (B g es (or_introl eq_refl)). cbn in B. lia.
  - destruct (Nat.eqb_spec (length (l :: rmaps)) g) as [Q|]; [|reflexivity]. specialize (B g es (or_introl eq_refl)). lia.
Qed.
Lemma locate_leaves w rmaps g es rge C P : length rmaps = g -> locate w rmaps ((g, es) :: rge) (C, P) = match loc_leaves w es (C, P) with Some st => down w rmaps rge st | None => None end.
Proof.
  intros Q. destruct rmaps; cbn [locate]; rewrite Q, Nat.eqb_refl; cbn [option_map]; destruct (loc_leaves w es (C, P)) as [[C' P']|]; reflexivity.
Qed.

Lemma locate_ok c w G0 : (0 < c)%N -> undirected G0 -> forall maps ge H b, chain c G0 maps ge H b -> forall C P, shape C (length H) P ->
  (w = c -> rep c H (fun _ => True) C P) ->
  exists C' P', locate w (rev maps) (rev ge) (C, P) = Some (C', P') /\ m_pos C' = m_pos C /\ shape C' (length G0) P' /\ (w = c -> rep c G0 (fun _ => True) C' P').
Proof.
  intros Pc U. induction 1 as [|maps ge H es m H' Ch IH St|maps ge H Ch IH|maps ge H b m H' Ch IH St]; intros C P Sh R.
  - exists C, P. cbn. auto.
  - pose proof (chain_ids _ _ _ _ _ _ Ch) as Ids. cbn in Ids. assert (UH : undirected H) by (apply (hier_ok _ _ _ U (chain_hier _ _ _ _ _ _ Ch))).
    rewrite !rev_app_distr. cbn [rev app]. rewrite locate_down.
    2:{ intros g es' [I|I]; cbn [length]; rewrite rev_length; [injection I as <- _; lia|]. apply in_rev in I. specialize (Ids g es' I). lia. }
    cbn [down fst snd]. destruct (compose_step c w H es m H' C P St Sh R) as (P1 & E1 & Sh1 & Q1 & R1). rewrite E1.
    rewrite locate_leaves by apply rev_length.
    destruct (leaves_step c w H Pc UH es C P1 Sh1 (st_es _ _ _ _ _ St)) as (C2 & P2 & E2 & M2 & Sh2 & R2); auto.
    { intros v t I. split; [apply (st_lone _ _ _ _ _ St); auto|auto]. }
    rewrite E2. rewrite <- locate_down. 2:{ intros g es' I. rewrite rev_length. apply in_rev in I. apply (Ids g es' I). }
    destruct (IH C2 P2 Sh2 R2) as (C3 & P3 & E3 & M3 & X). exists C3, P3. split; [auto|]. split; [congruence|auto].
  - pose proof (chain_ids _ _ _ _ _ _ Ch) as Ids. cbn in Ids. rewrite rev_app_distr. cbn [rev app]. rewrite locate_leaves by apply rev_length. cbn [loc_leaves].
    rewrite <- locate_down. 2:{ intros g es' I. rewrite rev_length. apply in_rev in I. apply (Ids g es' I). }
    apply IH; auto.
  - pose proof (chain_ids _ _ _ _ _ _ Ch) as Ids. rewrite rev_app_distr. cbn [rev app]. rewrite locate_down.
    2:{ intros g es' I. cbn [length]. rewrite rev_length. apply in_rev in I. specialize (Ids g es' I). destruct b; lia. }
    cbn [down fst snd]. destruct (compose_step c w H [] m H' C P St Sh R) as (P1 & E1 & Sh1 & Q1 & R1). rewrite E1.
    apply IH; auto. intro Ew. destruct (R1 Ew) as (A & B & D). split; [auto|]. split; [auto|]. intros S PS ES _. apply D; auto. intros v t [].
Qed.

(** * the containers *)
Lemma vertices_ok : forall P C n, n + length P = length (m_pos C) -> (forall p, In p P -> p < m_n C) -> length (m_cont C) = m_n C -> mvalid C ->
  (forall p x, p < m_n C -> (In x (nth p (m_cont C) []) <-> x < n /\ nth x (m_pos C) 0 = p)) ->
  exists C', loc_vertices C n P = Some C' /\ mvalid C' /\ m_n C' = m_n C /\ (forall f, gcut C' f = gcut C f) /\ groups_exact (m_n C') (m_cont C') (m_pos C') /\
    length (m_pos C') = length (m_pos C) /\ (forall x, x < n -> nth x (m_pos C') 0 = nth x (m_pos C) 0) /\ forall i, i < length P -> nth (n + i) (m_pos C') 0 = nth i P 0.
Proof.
  induction P as [|p P IH]; intros C n L B LC V Gr; cbn [loc_vertices].
  - exists C. cbn in L. split; [auto|]. split; [auto|]. split; [auto|]. split; [auto|]. split.
    { split; [lia|]. intros p x Hp. rewrite Gr by auto. replace n with (length (m_pos C)) by lia. tauto. }
    split; [auto|]. split; [auto|]. cbn. intros; lia.
  - cbn [length] in L. assert (Hp : p < m_n C) by (apply B; left; auto). destruct (Nat.ltb_spec n (length (m_pos C))); [|lia]. destruct (Nat.ltb_spec p (length (m_cont C))); [|lia]. cbn [andb].
    destruct (IH (loc_vertex C n p) (S n)) as (C' & E & V' & N' & Cut & G' & L' & Old & New); cbn [loc_vertex m_pos m_cont].
    + rewrite upd_length. lia.
    + intros q Hq. apply B. right. auto.
    + rewrite upd_length. exact LC.
    + exact V.
    + intros q x Hq. change (m_n (loc_vertex C n p)) with (m_n C) in Hq. destruct (Nat.eq_dec q p) as [Q|Q].
      * rewrite Q. rewrite nth_upd_eq by auto. rewrite in_app_iff, Gr by auto. cbn. destruct (Nat.eq_dec x n) as [Qx|Qx].
        -- rewrite Qx, nth_upd_eq by auto. split; [intros; split; auto; lia|intros _; right; left; auto].
        -- rewrite nth_upd_neq by auto. split; [intros [[]|[|[]]]; [split; [lia|auto]|lia]|intros [? ?]; left; split; [lia|auto]].
      * rewrite nth_upd_neq by auto. rewrite Gr by auto. destruct (Nat.eq_dec x n) as [Qx|Qx].
        -- rewrite Qx, nth_upd_eq by auto. split; [lia|intros [_ ?]; congruence].
        -- rewrite nth_upd_neq by auto. split; intros [? ?]; split; auto; lia.
    + exists C'. rewrite E. cbn [loc_vertex m_pos m_cont] in *. rewrite upd_length in L'. split; [auto|]. split; [auto|]. split; [auto|]. split; [auto|]. split; [auto|]. split; [auto|]. split.
      * intros x Hx. rewrite Old by lia. apply nth_upd_neq. lia.
      * intros [|i] Hi; cbn [nth].
        -- rewrite Nat.add_0_r, Old by lia. apply nth_upd_eq. auto.
        -- replace (n + S i) with (S n + i) by lia. apply New. cbn in Hi. lia.
Qed.

(** the whole of setVertexLocations; C: the cactus of the last graph *)
Definition located (G : graph) (C : mg) : Prop :=
  mvalid C /\ length (m_pos C) = length G /\ (forall v, v < length G -> nth v (m_pos C) 0 < m_n C) /\ groups_exact (m_n C) (m_cont C) (m_pos C).
Definition shows (c : N) (G : graph) (C : mg) : Prop :=
  sound (length G) (wt G) c (m_n C) (wt (adj (m_rows C))) (fun v => nth v (m_pos C) 0) /\
  complete (length G) (wt G) c (m_n C) (wt (adj (m_rows C))) (fun v => nth v (m_pos C) 0) /\
  atleast c (m_n C) (wt (adj (m_rows C))).

Lemma rep_shows c G C P : (forall x, x < length G -> nth x (m_pos C) 0 = nth x P 0) -> (rep c G (fun _ => True) C P <-> shows c G C).
Proof.
  intros E. assert (X : forall f x, x < length G -> pat P f x = f (nth x (m_pos C) 0)) by (intros f x Hx; unfold pat; rewrite E; auto).
  split.
  - intros (A & B & D). split; [|split; [|exact A]].
    + intros f Pf Ef. destruct (B f Pf Ef) as [B1 B2]. split; [apply (proper_ext _ _ _ (X f) B1)|]. rewrite <- B2. apply cutw_ext. intros x Hx. symmetry. auto.
    + intros S PS ES. destruct (D S PS ES I) as (f & Ef & Hf). exists f. split; [exact Ef|]. intros x Hx. rewrite <- X by auto. auto.
  - intros (A & B & D). split; [exact D|]. split.
    + intros f Pf Ef. destruct (A f Pf Ef) as [B1 B2]. split; [eapply proper_ext; [|exact B1]; intros x Hx; symmetry; apply X; auto|]. rewrite <- B2. apply cutw_ext. auto.
    + intros S PS ES _. destruct (B S PS ES) as (f & Ef & Hf). exists f. split; [exact Ef|]. intros x Hx. rewrite X by auto. auto.
Qed.

Lemma set_locations_ok c G0 s b C : (0 < c)%N -> undirected G0 -> chain c G0 (f_maps s) (f_ge s) (f_g s) b ->
  mvalid C -> m_last C = m_n C -> length (m_cont C) = m_n C -> length (m_pos C) = length (f_g s) -> (forall v, v < length (f_g s) -> nth v (m_pos C) 0 < m_n C) ->
  length (f_g s) <= length G0 -> (f_cut s = c -> shows c (f_g s) C) ->
  exists C', set_locations (length G0) C s = Some C' /\ located G0 C' /\ (f_cut s = c -> shows c G0 C').
Proof.
  intros Pc U Ch V ML LC LP BP LG R. unfold set_locations. set (C0 := loc_clear C (length G0)).
  assert (P0 : m_pos C0 = m_pos C ++ repeat 0 (length G0 - length (m_pos C))) by reflexivity.
  assert (Lp0 : length (m_pos C0) = length G0) by (rewrite P0, app_length, repeat_length; lia).
  assert (K0 : m_cont C0 = map (fun _ => []) (m_cont C)).
  { cbn [C0 loc_clear m_cont]. rewrite <- LC, firstn_all, skipn_all, app_nil_r. reflexivity. }
  assert (Kn : forall p, p < m_n C0 -> nth p (m_cont C0) [] = []).
  { intros p Hp. rewrite K0. rewrite (nth_map_in _ _ _ [] []); auto. rewrite LC. exact Hp. }
  assert (Kl : length (m_cont C0) = m_n C0) by (rewrite K0, map_length; auto).
  rewrite (compose_ok (length (m_pos C0)) (m_pos C0) eq_refl).
  2:{ intros x I. apply in_seq in I. lia. }
  set (P := map (fun x => nth x (m_pos C0) 0) (seq 0 (length (f_g s)))).
  assert (NP : forall x, x < length (f_g s) -> nth x P 0 = nth x (m_pos C) 0).
  { intros x Hx. unfold P. rewrite (nth_map_in _ _ _ 0 0) by (rewrite seq_length; auto). rewrite seq_nth by auto. cbn [Nat.add]. rewrite P0, app_nth1 by lia. reflexivity. }
  assert (Sh : shape C0 (length (f_g s)) P).
  { split; [exact V|]. split; [exact ML|]. split; [exact Kl|]. split; [exact Kn|]. split; [unfold P; rewrite map_length, seq_length; auto|]. intros x Hx. rewrite NP by auto. apply BP; auto. }
  assert (R0 : f_cut s = c -> rep c (f_g s) (fun _ => True) C0 P).
  { intro Ew. apply (proj2 (rep_shows c (f_g s) C P (fun x Hx => eq_sym (NP x Hx))) (R Ew)). }
  assert (X : exists C1 P1, (if 0 <? length (f_maps s) then locate (f_cut s) (rev (f_maps s)) (rev (f_ge s)) (C0, P) else Some (C0, P)) = Some (C1, P1) /\
     m_pos C1 = m_pos C0 /\ shape C1 (length G0) P1 /\ (f_cut s = c -> rep c G0 (fun _ => True) C1 P1)).
  { destruct (Nat.ltb_spec 0 (length (f_maps s))) as [Q|Q].
    - apply (locate_ok c (f_cut s) G0 Pc U _ _ _ _ Ch C0 P Sh R0).
    - exists C0, P. split; [auto|]. split; [auto|]. rewrite <- (chain_nomaps _ _ _ _ _ _ Ch) by lia. auto. }
  destruct X as (C1 & P1 & E1 & M1 & (V1 & L1 & LC1 & CE1 & LP1 & BP1) & R1). rewrite E1.
  destruct (vertices_ok P1 C1 0) as (C' & E & V' & N' & Cut & G' & L' & _ & New).
  - rewrite M1, Lp0. cbn. auto.
  - intros p I. destruct (In_nth _ _ 0 I) as [i [Hi Ei]]. rewrite <- Ei. apply BP1. lia.
  - auto.
  - auto.
  - intros p x Hp. rewrite CE1 by auto. cbn. split; [tauto|lia].
  - assert (New' : forall x, x < length G0 -> nth x (m_pos C') 0 = nth x P1 0) by (intros x Hx; apply (New x); lia).
    exists C'. split; [auto|]. split.
    + split; [auto|]. split; [rewrite L', M1; auto|]. split; [|auto]. intros v Hv. rewrite New' by auto. rewrite N'. apply BP1; auto.
    + intro Ew. apply (proj1 (rep_shows c G0 C' P1 New')). destruct (R1 Ew) as (A & B & D). unfold rep. rewrite N'. split; [|split].
      * intros f Pf. rewrite Cut. auto.
      * intros f Pf Ef. rewrite Cut in Ef. auto.
      * intros S PS ES F. destruct (D S PS ES F) as (f & Ef & Hf). exists f. rewrite Cut. auto.
Qed.
