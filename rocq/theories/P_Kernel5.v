(* P_Kernel5.v - triangleDetection: every pair it chooses comes from a heavy triangle; a single pair is safe
   when there are two terminals. *)
From Verif Require Import SpecRel P_UnionFind P_Cut P_Mutable P_MutableIO P_PRTests P_Multi P_Kernel.

Section Tri.
Context (G : mg) (ts : list nat) (active : nat -> bool) (MV : mvalid G).
Let n := m_n G.
Let R := m_rows G.
Let W := wt (adj R).
Let V : valid_rows R := proj1 MV.
Let dg (v : nat) : N := sumN (fun h : half => snd (fst h)) (nth v R []).

(** a and b are two corners of a triangle with third corner c that both have at least half their weight in it *)
Definition heavy_tri (a b c : nat) : Prop :=
  a < n /\ b < n /\ c < n /\ a <> b /\ a <> c /\ b <> c /\ ~ In a ts /\ ~ In b ts /\ nth a R [] <> [] /\ nth b R [] <> [] /\
  (dg a <= 2 * (W a b + W a c))%N /\ (dg b <= 2 * (W a b + W b c))%N.
Definition tri_pairs (ps : list (nat * nat)) : Prop := forall a b, In (a, b) ps -> exists c, heavy_tri a b c.

Lemma wt_ge v e t w r : slot R v e = Some (t, w, r) -> (w <= W v t)%N.
Proof.
  intro S. unfold W, wt. rewrite adj_nth, sumN_filter, sumN_map. apply nth_error_In in S.
  pose proof (sumN_In_le (fun h : half => if Nat.eqb (fst (fst h)) t then snd (fst h) else 0%N) (nth v R []) (t, w, r) S) as X. cbn [fst snd] in X. rewrite Nat.eqb_refl in X. exact X.
Qed.

Lemma find_self_ok ps u cond v : inv n ps u -> v < n -> exists u' b, find_self u cond v = Some (u', b) /\ inv n ps u' /\ (b = true -> cond = true).
Proof.
  intros I Hv. unfold find_self. destruct cond; [|exists u, false; auto]. destruct (find_conn n ps u v I Hv) as (u' & r & -> & I' & _). exists u', (r =? v). auto.
Qed.
Lemma union_if_ok ps u cond a b : inv n ps u -> tri_pairs ps -> a < n -> b < n -> (cond = true -> exists c, heavy_tri a b c) ->
  exists u' ps', union_if u cond a b = Some u' /\ inv n ps' u' /\ tri_pairs ps'.
Proof.
  intros I T Ha Hb H. unfold union_if. destruct cond; [|exists u, ps; auto]. destruct (union_inv n ps u a b I Ha Hb) as (u' & r & -> & I' & _).
  exists u', (ps ++ [(a, b)]). split; [reflexivity|]. split; [auto|]. intros x y Q. apply in_app_or in Q. destruct Q as [Q|[Q|[]]]; [auto|]. injection Q as <- <-. auto.
Qed.

(** the marks of v1's neighbours *)
Definition marks_ok (v1 : nat) (mk : list (option nat)) : Prop :=
  forall v e, nth v mk None = Some e -> ~ In v ts -> exists w r, slot R v1 e = Some (v, w, r).

Lemma heavy_of v1 v2 v3 e1 e2 e3 w1 w2 w3 r1 r2 r3 : v1 < v2 -> v2 < v3 -> ~ In v1 ts -> ~ In v2 ts -> ~ In v3 ts ->
  slot R v1 e1 = Some (v2, w1, r1) -> slot R v2 e2 = Some (v3, w2, r2) -> slot R v1 e3 = Some (v3, w3, r3) ->
  (forall v, v < n -> nth v (m_deg G) 0%N = dg v) ->
  ((nth v1 (m_deg G) 0 <= (w1 + w3) * 2)%N -> (nth v2 (m_deg G) 0 <= (w1 + w2) * 2)%N -> heavy_tri v1 v2 v3) /\
  ((nth v1 (m_deg G) 0 <= (w1 + w3) * 2)%N -> (nth v3 (m_deg G) 0 <= (w2 + w3) * 2)%N -> heavy_tri v1 v3 v2) /\
  ((nth v2 (m_deg G) 0 <= (w1 + w2) * 2)%N -> (nth v3 (m_deg G) 0 <= (w2 + w3) * 2)%N -> heavy_tri v2 v3 v1).
Proof.
  intros L12 L23 T1 T2 T3 S1 S2 S3 D.
  destruct (V v1 e1 v2 w1 r1 S1) as [H2 [_ B1]]. destruct (V v2 e2 v3 w2 r2 S2) as [H3 [_ B2]]. destruct (V v1 e3 v3 w3 r3 S3) as [_ [_ B3]].
  assert (H1 : v1 < n) by apply (slot_lt _ _ _ _ S1). change (length R) with n in *.
  rewrite !D by auto.
  pose proof (wt_ge _ _ _ _ _ S1). pose proof (wt_ge _ _ _ _ _ S2). pose proof (wt_ge _ _ _ _ _ S3).
  pose proof (wt_ge _ _ _ _ _ B1). pose proof (wt_ge _ _ _ _ _ B2). pose proof (wt_ge _ _ _ _ _ B3).
  assert (NE : forall v e h, slot R v e = Some h -> nth v R [] <> []) by (intros v e h Q Z; unfold slot in Q; rewrite Z in Q; destruct e; discriminate).
  pose proof (NE _ _ _ S1). pose proof (NE _ _ _ S2). pose proof (NE _ _ _ B2).
  repeat split; auto; try lia.
Qed.

Lemma tri_third_ok v1 v2 e1 w1 r1 mk : slot R v1 e1 = Some (v2, w1, r1) -> v1 < v2 -> ~ In v1 ts -> ~ In v2 ts -> marks_ok v1 mk ->
  forall row u ps, (forall h, In h row -> In h (nth v2 R [])) -> inv n ps u -> tri_pairs ps ->
  exists u' ps', tri_third row G ts v1 v2 w1 mk u = Some u' /\ inv n ps' u' /\ tri_pairs ps'.
Proof.
  intros S1 L12 T1 T2 MK. pose proof MV as [_ [[LD D] _]].
  induction row as [|[[v3 w2] r2] row IH]; intros u ps HR I T; cbn [tri_third]; [exists u, ps; auto|].
  assert (HR' : forall h, In h row -> In h (nth v2 R [])) by (intros; apply HR; right; auto).
  destruct ((v2 <? v3) && negb (isterm ts v3)) eqn:C; [|apply IH with ps; auto].
  apply andb_prop in C. destruct C as [L23 T3]. apply Nat.ltb_lt in L23. apply Bool.negb_true_iff, isterm_out in T3.
  destruct (nth v3 mk None) as [e3|] eqn:M; [|apply IH with ps; auto].
  destruct (MK v3 e3 M T3) as (w3 & r3 & S3). change (slot (m_rows G) v1 e3) with (slot R v1 e3). rewrite S3, Nat.eqb_refl. cbn [negb].
  destruct (In_nth_error _ _ (HR _ (or_introl eq_refl))) as [e2 S2].
  destruct (heavy_of v1 v2 v3 e1 e2 e3 w1 w2 w3 r1 r2 r3 L12 L23 T1 T2 T3 S1 S2 S3 D) as (Q1 & Q2 & Q3).
  assert (H1 : v1 < n) by apply (slot_lt _ _ _ _ S1).
  assert (H2 : v2 < n) by apply (slot_lt _ _ _ _ S2).
  assert (H3 : v3 < n) by apply (V v1 e3 v3 w3 r3 S3).
  destruct (find_self_ok ps u (nth v1 (m_deg G) 0 <=? (w1 + w3) * 2)%N v1 I H1) as (u1 & b1 & -> & I1 & B1).
  destruct (find_self_ok ps u1 (nth v2 (m_deg G) 0 <=? (w1 + w2) * 2)%N v2 I1 H2) as (u2 & b2 & -> & I2 & B2).
  destruct (find_self_ok ps u2 (nth v3 (m_deg G) 0 <=? (w2 + w3) * 2)%N v3 I2 H3) as (u3 & b3 & -> & I3 & B3).
  rewrite N.leb_le in B1, B2, B3.
  destruct (union_if_ok ps u3 (b1 && b2) v1 v2 I3 T H1 H2) as (u4 & p4 & -> & I4 & T4); [intro X; apply andb_prop in X; exists v3; apply Q1; tauto|].
  destruct (union_if_ok p4 u4 (b1 && b3) v1 v3 I4 T4 H1 H3) as (u5 & p5 & -> & I5 & T5); [intro X; apply andb_prop in X; exists v2; apply Q2; tauto|].
  destruct (union_if_ok p5 u5 (b2 && b3) v2 v3 I5 T5 H2 H3) as (u6 & p6 & -> & I6 & T6); [intro X; apply andb_prop in X; exists v1; apply Q3; tauto|].
  apply IH with p6; auto.
Qed.

Lemma marks_reset v1 mk v : marks_ok v1 mk -> marks_ok v1 (upd mk v None).
Proof.
  intros M x e H. destruct (Nat.eq_dec x v) as [->|N].
  - destruct (Nat.lt_ge_cases v (length mk)); [rewrite nth_upd_eq in H by auto; discriminate|]. rewrite nth_overflow in H by (rewrite upd_length; auto). discriminate.
  - rewrite nth_upd_neq in H by auto. apply M. auto.
Qed.

(** outside a vertex only terminals can be marked; rest: targets of v1 that still may be marked *)
Definition only_marked (P : nat -> Prop) (mk : list (option nat)) : Prop := forall v, nth v mk None <> None -> ~ In v ts -> P v.

Lemma only_reset P mk v : only_marked P mk -> only_marked (fun x => P x /\ x <> v) (upd mk v None).
Proof.
  intros M x H N. destruct (Nat.eq_dec x v) as [->|Nx].
  - exfalso. apply H. destruct (Nat.lt_ge_cases v (length mk)); [apply nth_upd_eq; auto|]. apply nth_overflow. rewrite upd_length. auto.
  - rewrite nth_upd_neq in H by auto. split; auto.
Qed.

Lemma tri_second_ok v1 : ~ In v1 ts -> forall row k mk u ps, (forall i h, nth_error row i = Some h -> slot R v1 (k + i) = Some h) ->
  marks_ok v1 mk -> only_marked (fun v => v1 < v /\ exists h, In h row /\ fst (fst h) = v) mk -> inv n ps u -> tri_pairs ps ->
  exists mk' u' ps', tri_second row G ts v1 mk u = Some (mk', u') /\ only_marked (fun _ => False) mk' /\ inv n ps' u' /\ tri_pairs ps'.
Proof.
  intro T1. induction row as [|[[v2 w1] r1] row IH]; intros k mk u ps HR MK OM I T; cbn [tri_second].
  - exists mk, u, ps. split; [auto|]. split; [|auto]. intros v H N. destruct (OM v H N) as (_ & h & [] & _).
  - assert (S1 : slot R v1 k = Some (v2, w1, r1)) by (specialize (HR 0 _ eq_refl); rewrite Nat.add_0_r in HR; auto).
    assert (HR' : forall i h, nth_error row i = Some h -> slot R v1 (S k + i) = Some h) by (intros i h H; specialize (HR (S i) h H); rewrite <- HR; f_equal; lia).
    destruct ((v1 <? v2) && negb (isterm ts v2)) eqn:C.
    + apply andb_prop in C. destruct C as [L T2]. apply Nat.ltb_lt in L. apply Bool.negb_true_iff, isterm_out in T2.
      destruct (tri_third_ok v1 v2 k w1 r1 mk S1 L T1 T2 MK (nth v2 (m_rows G) []) u ps) as (u' & ps' & -> & I' & T'); auto.
      apply (IH (S k) _ _ ps'); auto; [apply marks_reset; auto|].
      apply only_reset with (v := v2) in OM. intros x H N. destruct (OM x H N) as [(Lx & h & [<-|Hh] & E) Nx]; [cbn in E; congruence|eauto].
    + apply (IH (S k) _ _ ps); auto. intros x H N. destruct (OM x H N) as (Lx & h & [<-|Hh] & E); [|eauto]. cbn in E. subst x. exfalso.
      apply Nat.ltb_lt in Lx. rewrite Lx in C. cbn in C. apply Bool.negb_false_iff, isterm_In in C. contradiction.
Qed.

Lemma tri_mark_ok v1 : forall row k mk P, (forall i h, nth_error row i = Some h -> slot R v1 (k + i) = Some h) -> marks_ok v1 mk -> only_marked P mk ->
  marks_ok v1 (tri_mark row v1 k mk) /\ only_marked (fun v => P v \/ (v1 < v /\ exists h, In h row /\ fst (fst h) = v)) (tri_mark row v1 k mk).
Proof.
  induction row as [|[[t w] r] row IH]; intros k mk P HR MK OM; cbn [tri_mark].
  - split; [auto|]. intros v H N. left. auto.
  - assert (S1 : slot R v1 k = Some (t, w, r)) by (specialize (HR 0 _ eq_refl); rewrite Nat.add_0_r in HR; auto).
    assert (HR' : forall i h, nth_error row i = Some h -> slot R v1 (S k + i) = Some h) by (intros i h H; specialize (HR (S i) h H); rewrite <- HR; f_equal; lia).
    destruct (Nat.ltb_spec v1 t) as [L|L].
    + destruct (IH (S k) (upd mk t (Some k)) (fun v => P v \/ v = t) HR') as [A B].
      * intros v e H N. destruct (Nat.eq_dec v t) as [->|Nt].
        -- destruct (Nat.lt_ge_cases t (length mk)) as [Q|Q]; [rewrite nth_upd_eq in H by auto; injection H as <-; eauto|].
           rewrite nth_overflow in H by (rewrite upd_length; auto). discriminate.
        -- rewrite nth_upd_neq in H by auto. apply MK; auto.
      * intros v H N. destruct (Nat.eq_dec v t) as [->|Nt]; [auto|]. rewrite nth_upd_neq in H by auto. left. auto.
      * split; [auto|]. intros v H N. destruct (B v H N) as [[Q|Q]|(Q1 & h & Q2 & Q3)].
        -- auto.
        -- subst v. right. split; [auto|]. exists (t, w, r). split; [left|]; auto.
        -- right. split; [auto|]. exists h. split; [right|]; auto.
    + destruct (IH (S k) mk P HR' MK OM) as [A B]. split; [auto|]. intros v H N. destruct (B v H N) as [Q|(Q1 & h & Q2 & Q3)]; [auto|].
      right. split; [auto|]. exists h. split; [right|]; auto.
Qed.

Lemma reset_all (P : nat -> Prop) : forall (row : list half) mk, only_marked (fun v => P v \/ exists h, In h row /\ fst (fst h) = v) mk ->
  only_marked P (fold_left (fun m (h : half) => upd m (fst (fst h)) None) row mk).
Proof.
  induction row as [|h row IH]; intros mk H; cbn [fold_left].
  - intros v Q N. destruct (H v Q N) as [X|(h & [] & _)]. auto.
  - apply IH. apply only_reset with (v := fst (fst h)) in H. intros v Q N. destruct (H v Q N) as [[X|(h' & [<-|X] & E)] Nv]; [auto|congruence|right; eauto].
Qed.

Lemma tri_node_ok mk u ps v1 : only_marked (fun _ => False) mk -> inv n ps u -> tri_pairs ps ->
  exists mk' u' ps', tri_node G ts active (mk, u) v1 = Some (mk', u') /\ only_marked (fun _ => False) mk' /\ inv n ps' u' /\ tri_pairs ps'.
Proof.
  intros OM I T. unfold tri_node. destruct (negb (active v1) || isterm ts v1) eqn:C; [exists mk, u, ps; auto|].
  apply orb_false_elim in C. destruct C as [_ T1]. apply isterm_out in T1. fold R.
  assert (M0 : marks_ok v1 mk) by (intros v e H N; exfalso; apply (OM v); [congruence|auto]).
  destruct (tri_mark_ok v1 (nth v1 R []) 0 mk (fun _ => False)) as [M1 O1]; auto.
  destruct (max_weight (nth v1 R []) * 4 <? nth v1 (m_deg G) 0)%N.
  - eexists _, u, ps. split; [reflexivity|]. split; [|auto]. apply reset_all. intros v H N. destruct (O1 v H N) as [[]|(_ & X)]. auto.
  - apply (tri_second_ok v1 T1 (nth v1 R []) 0 _ u ps); auto. intros v H N. destruct (O1 v H N) as [[]|X]. auto.
Qed.

Lemma tri_nodes_ok : forall ns mk u ps, only_marked (fun _ => False) mk -> inv n ps u -> tri_pairs ps ->
  exists mk' u' ps', tri_nodes G ts active ns (mk, u) = Some (mk', u') /\ inv n ps' u' /\ tri_pairs ps'.
Proof.
  induction ns as [|v ns IH]; intros mk u ps OM I T; cbn [tri_nodes]; [exists mk, u, ps; auto|].
  destruct (tri_node_ok mk u ps v OM I T) as (mk' & u' & ps' & -> & OM' & I' & T'). apply (IH mk' u' ps'); auto.
Qed.

Theorem triangles_ok : exists u ps, triangles G ts active = Some u /\ inv n ps u /\ tri_pairs ps.
Proof.
  unfold triangles. fold n. destruct (tri_nodes_ok (seq 0 n) (repeat None n) (uf_init n) []) as (mk & u & ps & -> & I & T).
  - intros v H. exfalso. apply H. destruct (Nat.lt_ge_cases v n); [apply nth_repeat|apply nth_overflow; rewrite repeat_length; auto].
  - apply inv_init.
  - intros ? ? [].
  - exists u, ps. auto.
Qed.

(** two terminals, one pair *)
Lemma half_move x b c f : x < n -> b < n -> c < n -> b <> c -> b <> x -> c <> x -> (dg x <= 2 * (W x b + W x c))%N -> f b = f c -> f b <> f x ->
  (att n W f x (f x) <= att n W f x (f b))%N.
Proof.
  intros Hx Hb Hc Nbc Nbx Ncx D E N.
  assert (A : (W x b + W x c <= att n W f x (f b))%N).
  { unfold att. pose proof (bsum_single n (W x) b Hb) as X. pose proof (bsum_single n (W x) c Hc) as Y. rewrite <- X, <- Y, <- bsum_add. apply bsum_le. intros v Hv.
    destruct (Nat.eqb_spec v b) as [Eb|]; destruct (Nat.eqb_spec v c) as [Ec|]; subst; try congruence; try lia.
    - destruct (Nat.eqb_spec b x); [congruence|]. rewrite Nat.eqb_refl. lia.
    - destruct (Nat.eqb_spec c x); [congruence|]. rewrite E, Nat.eqb_refl. lia. }
  pose proof (att_two n W f x (f x) (f b) ltac:(auto)) as B.
  assert (C : bsum n (fun v => if Nat.eqb v x then 0%N else W x v) = dg x).
  { unfold dg. transitivity (sumN (fun h : half => if Nat.eqb 0 0 then snd (fst h) else 0%N) (nth x R [])); [|apply sumN_ext; reflexivity].
    pose proof (att_row R V (fun _ => 0) x 0) as Q. cbn beta in Q. rewrite <- Q. unfold att. apply bsum_ext. intros v _. cbn. reflexivity. }
  lia.
Qed.

Lemma two_blocks f x y z : length ts = 2 -> separates n ts f -> x < n -> y < n -> z < n -> f x <> f y -> f z = f x \/ f z = f y.
Proof. intros L [A _] Hx Hy Hz N. pose proof (A x Hx). pose proof (A y Hy). pose proof (A z Hz). lia. Qed.

Lemma one_pair_safe a b c : length ts = 2 -> heavy_tri a b c -> safe_pairs n W ts (fun x y => x = y \/ (x = a /\ y = b) \/ (x = b /\ y = a)).
Proof.
  intros L (Ha & Hb & Hc & Nab & Nac & Nbc & Ta & Tb & _ & _ & Da & Db) f F.
  assert (Sy : symm n W) by (apply W_symm; exact V).
  destruct (Nat.eq_dec (f a) (f b)) as [E|E].
  { exists f. split; [auto|]. split; [lia|]. intros x y _ _ [->|[[-> ->]|[-> ->]]]; auto. }
  assert (FA : f a < length ts) by (apply F; auto). assert (FB : f b < length ts) by (apply F; auto).
  destruct (two_blocks f a b c L F Ha Hb Hc E) as [Q|Q].
  - exists (mv f b (f a)). split; [apply mv_separates; auto|]. split.
    + apply move_le; auto. apply (half_move b a c); auto. rewrite (Sy b a) by auto. exact Db.
    + intros x y _ _ [->|[[-> ->]|[-> ->]]]; auto; rewrite mv_eq, mv_neq by auto; auto.
  - exists (mv f a (f b)). split; [apply mv_separates; auto|]. split.
    + apply move_le; auto. apply (half_move a b c); auto.
    + intros x y _ _ [->|[[-> ->]|[-> ->]]]; auto; rewrite mv_eq, mv_neq by auto; auto.
Qed.
End Tri.

(** with n - 1 classes there is one class of two vertices *)
Lemma one_merge n ps u : inv n ps u -> n <= S (cnt u) -> forall a b x y, a < n -> b < n -> x < n -> y < n -> conn ps a b -> a <> b -> conn ps x y -> x <> y ->
  (x = a /\ y = b) \/ (x = b /\ y = a).
Proof.
  intros I C. set (p := parent u).
  assert (ONE : forall x y, x < n -> y < n -> nth x p 0 <> x -> nth y p 0 <> y -> x = y).
  { intros x y Hx Hy Nx Ny. destruct (Nat.eq_dec x y) as [|N]; [auto|]. exfalso.
    rewrite (inv_cnt _ _ _ I) in C. unfold nroots in C. fold p in C. assert (Lp : length p = n) by apply (inv_len _ _ _ I). rewrite Lp in C.
    assert (LE : length (x :: y :: filter (fun z => nth z p 0 =? z) (seq 0 n)) <= length (seq 0 n)).
    { apply NoDup_incl_length.
      - constructor; [intros [?|X]; [congruence|]|constructor; [intro X|apply NoDup_filter, seq_NoDup]]; apply filter_In in X; destruct X as [_ X]; apply Nat.eqb_eq in X; contradiction.
      - intros z [<-|[<-|Z]]; [apply in_seq; lia..|]. apply filter_In in Z. tauto. }
    cbn [length] in LE. rewrite seq_length in LE. lia. }
  assert (K : forall x y, x < n -> y < n -> conn ps x y -> x <> y -> exists z r, nth z p 0 <> z /\ Root p z r /\ ((x = z /\ y = r) \/ (x = r /\ y = z))).
  { intros x y Hx Hy Q N. apply (inv_conn _ _ _ I x y Hx Hy) in Q. destruct Q as (r & Rx & Ry). fold p in Rx, Ry.
    destruct (Nat.eq_dec (nth x p 0) x) as [Ex|Ex].
    - assert (r = x) by (inversion Rx; subst; auto; contradiction). subst r.
      assert (Ey : nth y p 0 <> y) by (intro Ey; inversion Ry; subst; auto). exists y, x. auto.
    - exists x, r. split; [auto|]. split; [auto|]. left. split; [auto|].
      destruct (Nat.eq_dec (nth y p 0) y) as [Ey|Ey]; [inversion Ry; subst; auto; contradiction|]. exfalso. apply N. apply ONE; auto. }
  intros a b x y Ha Hb Hx Hy Cab Nab Cxy Nxy.
  destruct (K a b Ha Hb Cab Nab) as (z & r & Nz & Rz & E1). destruct (K x y Hx Hy Cxy Nxy) as (z' & r' & Nz' & Rz' & E2).
  assert (z < n) by (destruct E1 as [[-> _]|[_ ->]]; auto). assert (z' < n) by (destruct E2 as [[-> _]|[_ ->]]; auto).
  assert (z' = z) by (apply ONE; auto). subst z'. assert (r' = r) by (eapply Root_fun; eauto). subst r'. intuition congruence.
Qed.

Theorem triangles_one_pair G ts : mvalid G -> length ts = 2 -> forall u ps, inv (m_n G) ps u -> tri_pairs G ts ps -> m_n G <= S (cnt u) ->
  safe_pairs (m_n G) (wt (adj (m_rows G))) ts (conn ps) /\ edges_only (m_rows G) ps.
Proof.
  intros MV L u ps I T C. split.
  - destruct ps as [|[a b] ps]; [intros f F; exists f; split; [auto|]; split; [lia|]; intros x y _ _ Q; rewrite (conn_nil_eq _ _ Q); auto|].
    destruct (T a b (or_introl eq_refl)) as (c & H). pose proof (one_pair_safe G ts (fun _ => true) MV a b c L H) as SP. intros f F. destruct (SP f F) as (f' & F' & L' & K).
    exists f'. split; [auto|]. split; [auto|]. intros x y Hx Hy Q. destruct (Nat.eq_dec x y) as [->|N]; [auto|]. apply K; auto. right.
    destruct H as (Ha & Hb & _ & Nab & _). eapply (one_merge _ _ _ I C a b); eauto. apply conn_pair. left. auto.
  - intros a b Q. destruct (T a b Q) as (c & H). destruct H as (_ & _ & _ & _ & _ & _ & _ & _ & NA & NB & _). auto.
Qed.

Lemma row_weight R : valid_rows R -> forall x, bsum (length R) (wt (adj R) x) = sumN (fun h : half => snd (fst h)) (nth x R []).
Proof.
  intros V x. transitivity (sumN (fun h : half => if Nat.eqb 0 0 then snd (fst h) else 0%N) (nth x R [])); [|apply sumN_ext; reflexivity].
  pose proof (att_row R V (fun _ => 0) x 0) as Q. cbn beta in Q. rewrite <- Q. unfold att. apply bsum_ext. intros v _. destruct (Nat.eqb_spec v x) as [->|]; [|reflexivity].
  unfold wt. rewrite adj_nth, sumN_filter, sumN_map. apply sumN_zero. intros [[t w] r] H. cbn [fst snd]. apply In_nth_error in H. destruct H as [e S].
  destruct (V x e t w r S) as [_ [N _]]. destruct (Nat.eqb_spec t x); [congruence|reflexivity].
Qed.
