(* P_Core2.v - batagelj_zaversnik computes core numbers. *)
From Verif Require Import M_Core P_Core.

Section Core.
Context (nb : list (list nat)).
Let n := length nb.
Context (Hnb : forall v w, v < n -> In w (nth v nb []) -> w < n).
Context (Hsym : forall u v, u < n -> v < n -> count_occ Nat.eq_dec (nth u nb []) v = count_occ Nat.eq_dec (nth v nb []) u).

Definition rdeg (S : nat -> bool) (t : nat) : nat := length (filter S (nth t nb [])).
Definition core_set (k : nat) (S : nat -> bool) : Prop := forall u, S u = true -> u < n /\ k <= rdeg S u.

Notation d s u := (nth u (k_deg s) 0).
Notation pos s u := (nth u (k_pos s) 0).

Lemma rdeg_split (f g : nat -> bool) v t : (forall u, u < n -> g u = (f u && negb (u =? v))%bool) -> f v = true -> t < n -> rdeg f t = rdeg g t + count_occ Nat.eq_dec (nth t nb []) v.
Proof.
  intros H Fv Ht. unfold rdeg. assert (A : forall w, In w (nth t nb []) -> w < n) by (intros; eapply Hnb; eauto). induction (nth t nb []) as [|u l IH]; [reflexivity|].
  cbn [filter count_occ]. rewrite (H u) by (apply A; left; auto). specialize (IH (fun w Hw => A w (or_intror Hw))).
  destruct (Nat.eq_dec u v) as [->|NE]; [rewrite Fv, Nat.eqb_refl; cbn [andb negb length]; lia|]. rewrite (proj2 (Nat.eqb_neq u v) NE). cbn [negb]. rewrite andb_true_r. destruct (f u); cbn [length]; lia.
Qed.
Lemma rdeg_mono (f g : nat -> bool) t : (forall u, f u = true -> g u = true) -> rdeg f t <= rdeg g t.
Proof. intro H. unfold rdeg. induction (nth t nb []) as [|u l IH]; [auto|]. cbn [filter]. specialize (H u). destruct (f u), (g u); cbn [length]; try lia; specialize (H eq_refl); discriminate. Qed.
Lemma rdeg_ext (f g : nat -> bool) t : t < n -> (forall u, u < n -> f u = g u) -> rdeg f t = rdeg g t.
Proof. intros Ht H. unfold rdeg. f_equal. apply filter_ext_in. intros u Hu. apply H. eapply Hnb; eauto. Qed.

Lemma inner_ok mx i s0 r0 : i < n -> kinv nb mx s0 -> let v := nth i (k_vert s0) 0 in let L := d s0 v in
  (forall t, t < n -> i < pos s0 t -> d s0 t = Nat.max (r0 t) L) -> (forall t, t < n -> pos s0 t <= i -> d s0 t <= L) ->
  forall es pre s, (forall w, In w es -> w < n) -> kinv nb mx s ->
  (forall u, u < n -> (pos s u <= i <-> pos s0 u <= i)) -> nth i (k_vert s) 0 = v ->
  (forall u, u < n -> d s u <= d s0 u) -> (forall u, u < n -> pos s0 u <= i -> d s u = d s0 u) ->
  (forall t, t < n -> i < pos s0 t -> d s t = Nat.max (r0 t - count_occ Nat.eq_dec pre t) L) ->
  exists s', fold_opt (kc_edge v) es s = Some s' /\ kinv nb mx s' /\
    (forall u, u < n -> (pos s' u <= i <-> pos s0 u <= i)) /\ nth i (k_vert s') 0 = v /\
    (forall u, u < n -> d s' u <= d s0 u) /\ (forall u, u < n -> pos s0 u <= i -> d s' u = d s0 u) /\
    (forall t, t < n -> i < pos s0 t -> d s' t = Nat.max (r0 t - count_occ Nat.eq_dec (pre ++ es) t) L).
Proof.
  intros Hi I0 v L H1 H2. destruct (ki_pv _ _ _ I0 i Hi) as [Lv Pv]. fold v in Lv, Pv. fold n in Lv.
  induction es as [|t es IH]; intros pre s HE I PO VI DL DP DR; cbn [fold_opt].
  - exists s. rewrite app_nil_r. exact (conj eq_refl (conj I (conj PO (conj VI (conj DL (conj DP DR)))))).
  - assert (Lt : t < n) by (apply HE; left; auto).
    assert (DV : d s v = L) by (apply DP; [auto|lia]).
    replace (pre ++ t :: es) with ((pre ++ [t]) ++ es) by (rewrite <- app_assoc; reflexivity).
    assert (CO : forall u, count_occ Nat.eq_dec (pre ++ [t]) u = count_occ Nat.eq_dec pre u + if Nat.eq_dec t u then 1 else 0) by (intro u; rewrite count_occ_app; cbn [count_occ]; destruct (Nat.eq_dec t u); lia).
    destruct (Nat.lt_ge_cases (d s v) (d s t)) as [LT|GE].
    + destruct (edge_ok nb mx s v t I Lv Lt LT) as (s' & -> & I' & D1 & D2 & P1 & V1).
      assert (Q : nth (nth i (k_vert s) 0) (k_deg s) 0 < d s t) by (rewrite VI; exact LT).
      assert (NP : i < pos s0 t). { destruct (Nat.lt_ge_cases i (pos s0 t)); [auto|]. exfalso. rewrite (DP t Lt) in LT by auto. specialize (H2 t Lt H). lia. }
      apply IH; auto.
      * intros w Hw. apply HE. right. auto.
      * intros u Hu. rewrite (P1 i u Hu Hi Q). auto.
      * rewrite (V1 i Hi Q). exact VI.
      * intros u Hu. destruct (Nat.eq_dec u t) as [->|]; [rewrite D2; specialize (DL t Lt); lia|rewrite D1 by auto; auto].
      * intros u Hu Pu. destruct (Nat.eq_dec u t) as [->|]; [lia|rewrite D1 by auto; auto].
      * intros u Hu Pu. rewrite CO. destruct (Nat.eq_dec t u) as [<-|NE].
        -- rewrite D2, (DR t Lt NP). rewrite (DR t Lt NP), DV in LT. lia.
        -- rewrite D1, Nat.add_0_r by auto. apply DR; auto.
    + assert (E : kc_edge v s t = Some s). { unfold kc_edge. rewrite (ki_ld _ _ _ I). fold n. destruct (Nat.ltb_spec t n); [|lia]. cbn [negb]. destruct (Nat.ltb_spec (d s v) (d s t)); [lia|reflexivity]. }
      rewrite E. apply IH; auto; [intros w Hw; apply HE; right; auto|].
      intros u Hu Pu. rewrite CO. destruct (Nat.eq_dec t u) as [<-|NE]; [|rewrite Nat.add_0_r; apply DR; auto]. rewrite DV in GE. rewrite (DR t Lt Pu) in GE |- *. lia.
Qed.

Record jinv (mx i lv : nat) (s : k_cores) : Prop := {
  j_k : kinv nb mx s;
  j_un : forall t, t < n -> i <= pos s t -> d s t = Nat.max (rdeg (fun u => i <=? pos s u) t) lv;
  j_pr : forall t, t < n -> pos s t < i -> d s t <= lv;
  j_up : forall k, k <= lv -> exists S, core_set k S /\ forall u, u < n -> k <= d s u -> S u = true;
  j_lo : forall k S, core_set k S -> (forall u, S u = true -> i <= pos s u) \/ (k <= lv /\ forall u, S u = true -> pos s u < i -> k <= d s u) }.

Lemma vertex_ok mx i lv s : i < n -> jinv mx i lv s -> exists s', kc_vertex nb s i = Some s' /\ jinv mx (S i) (d s (nth i (k_vert s) 0)) s'.
Proof.
  intros Hi [I JU JP JA JL]. set (v := nth i (k_vert s) 0) in *. destruct (ki_pv _ _ _ I i Hi) as [Lv Pv]. fold v in Lv, Pv. fold n in Lv.
  set (un := fun u => i <=? pos s u) in *. set (L := d s v) in *.
  assert (LL : L = Nat.max (rdeg un v) lv) by (apply JU; [auto|lia]).
  assert (SO : forall t, t < n -> i <= pos s t -> L <= d s t).
  { intros t Ht Pt. destruct (ki_vp _ _ _ I t Ht) as [A B]. pose proof (ki_sort _ _ _ I i (pos s t) Pt A) as Q. rewrite B in Q. exact Q. }
  assert (JU' : forall t, t < n -> i <= pos s t -> d s t = Nat.max (rdeg un t) L) by (intros t Ht Pt; pose proof (JU t Ht Pt); pose proof (SO t Ht Pt); lia).
  assert (POSV : forall t, t < n -> pos s t = i -> t = v) by (intros t Ht E; destruct (ki_vp _ _ _ I t Ht) as [_ B]; rewrite E in B; symmetry; exact B).
  assert (JP' : forall t, t < n -> pos s t <= i -> d s t <= L).
  { intros t Ht Pt. destruct (Nat.eq_dec (pos s t) i) as [E|]; [rewrite (POSV t Ht E); unfold L; auto|]. pose proof (JP t Ht ltac:(lia)). lia. }
  destruct (inner_ok mx i s (rdeg un) Hi I (fun t Ht Pt => JU' t Ht ltac:(lia)) JP' (nth v nb []) [] s) as (s' & E & I' & PO & VI & DL & DP & DR).
  - intros w Hw. eapply Hnb; [exact Lv|exact Hw].
  - exact I.
  - reflexivity.
  - reflexivity.
  - auto.
  - auto.
  - intros t Ht Pt. cbn [count_occ]. rewrite Nat.sub_0_r. apply JU'; [auto|lia].
  - cbn [app] in DR. fold v in E, DR, VI. fold L in DR. exists s'. split; [unfold kc_vertex; fold v; fold n; rewrite (proj2 (Nat.ltb_lt _ _) Lv); exact E|]. constructor.
    + exact I'.
    + intros t Ht Pt. assert (Pt0 : i < pos s t) by (destruct (PO t Ht); lia). rewrite (DR t Ht Pt0). f_equal. rewrite (Hsym v t Lv Ht).
      rewrite (rdeg_split un (fun u => S i <=? pos s' u) v t); [lia| | |auto].
      * intros u Hu. unfold un. destruct (PO u Hu) as [A B]. destruct (Nat.leb_spec (S i) (pos s' u)), (Nat.leb_spec i (pos s u)), (Nat.eqb_spec u v) as [->|NE]; cbn; try reflexivity; try lia.
        exfalso. apply NE, POSV; [auto|]. lia.
      * unfold un. apply Nat.leb_le. lia.
    + intros t Ht Pt. assert (Pt0 : pos s t <= i) by (destruct (PO t Ht); lia). rewrite (DP t Ht Pt0). apply JP'; auto.
    + intros k Hk. destruct (Nat.le_gt_cases k lv) as [LE|GT].
      * destruct (JA k LE) as (T & CT & HT). exists T. split; [exact CT|]. intros u Hu K. apply HT; [auto|]. specialize (DL u Hu). lia.
      * exists (fun u => (u <? n) && un u). split.
        -- intros u HU. apply andb_true_iff in HU as [U1 U2]. apply Nat.ltb_lt in U1. unfold un in U2. apply Nat.leb_le in U2. split; [auto|].
           rewrite (rdeg_ext _ un u U1) by (intros x Hx; rewrite (proj2 (Nat.ltb_lt _ _) Hx); reflexivity). pose proof (JU u U1 U2). pose proof (SO u U1 U2). lia.
        -- intros u Hu K. rewrite (proj2 (Nat.ltb_lt _ _) Hu). cbn [andb]. unfold un. apply Nat.leb_le. destruct (Nat.le_gt_cases i (pos s u)) as [|Q]; [auto|]. exfalso. specialize (JP u Hu Q). specialize (DL u Hu). lia.
    + intros k T CT. destruct (JL k T CT) as [A|[A B]].
      * destruct (T v) eqn:TV.
        -- right. destruct (CT v TV) as [_ RV]. assert (KL : k <= L). { rewrite LL. etransitivity; [exact RV|]. etransitivity; [apply (rdeg_mono T un)|lia]. intros u Hu. unfold un. apply Nat.leb_le, A, Hu. }
           split; [exact KL|]. intros u Tu Pu. destruct (CT u Tu) as [Hu _]. assert (Pu0 : pos s u <= i) by (destruct (PO u Hu); lia). rewrite (DP u Hu Pu0). rewrite (POSV u Hu); [exact KL|]. specialize (A u Tu). lia.
        -- left. intros u Tu. destruct (CT u Tu) as [Hu _]. specialize (A u Tu). destruct (PO u Hu) as [X Y]. destruct (Nat.eq_dec (pos s u) i) as [E'|]; [rewrite (POSV u Hu E') in Tu; congruence|]. lia.
      * right. split; [lia|]. intros u Tu Pu. destruct (CT u Tu) as [Hu _]. assert (Pu0 : pos s u <= i) by (destruct (PO u Hu); lia). rewrite (DP u Hu Pu0).
        destruct (Nat.eq_dec (pos s u) i) as [E'|]; [rewrite (POSV u Hu E'); fold L; lia|]. apply B; [auto|lia].
Qed.

Lemma core_ok : exists s mx, batagelj_zaversnik nb = Some s /\ kinv nb mx s /\
  forall v k, v < n -> (k <= d s v <-> exists S, S v = true /\ core_set k S).
Proof.
  unfold batagelj_zaversnik. fold n. destruct (init_ok nb) as (s0 & mx & -> & I0 & D0). fold n in D0.
  assert (J0 : jinv mx 0 0 s0).
  { constructor; auto.
    - intros t Ht _. rewrite D0, Nat.max_0_r by auto. unfold rdeg, dg0. f_equal. clear. induction (nth t nb []) as [|u l IH]; [reflexivity|]. cbn. f_equal. exact IH.
    - intros; lia.
    - intros k Hk. exists (fun u => u <? n). split; [|intros u Hu _; apply Nat.ltb_lt; auto]. intros u Hu. apply Nat.ltb_lt in Hu. split; [auto|lia].
    - intros k T _. left. intros; lia. }
  assert (G : forall i, i <= n -> exists s lv, fold_opt (kc_vertex nb) (seq 0 i) s0 = Some s /\ jinv mx i lv s).
  { induction i as [|i IH]; intro Hi; [exists s0, 0; split; [reflexivity|exact J0]|]. destruct (IH ltac:(lia)) as (s & lv & E & J). rewrite seq_S, fold_opt_app, E. cbn [plus fold_opt].
    destruct (vertex_ok mx i lv s ltac:(lia) J) as (s' & E' & J'). rewrite E'. exists s', (d s (nth i (k_vert s) 0)). auto. }
  destruct (G n (le_n n)) as (s & lv & -> & J). exists s, mx. split; [reflexivity|]. split; [apply (j_k _ _ _ _ J)|].
  intros v k Hv. destruct (ki_vp _ _ _ (j_k _ _ _ _ J) v Hv) as [Pv _]. fold n in Pv. split.
  - intro K. destruct (j_up _ _ _ _ J k) as (T & CT & HT); [pose proof (j_pr _ _ _ _ J v Hv Pv); lia|]. exists T. split; [apply HT; auto|exact CT].
  - intros (T & TV & CT). destruct (j_lo _ _ _ _ J k T CT) as [A|[_ B]]; [specialize (A v TV); lia|]. apply B; auto.
Qed.
End Core.
