(* P_Flow4.v - proofs about push_relabel: global relabeling and initialisation. *)
From Verif Require Import SpecCut LibZ P_Mutable M_PushRelabel P_Flow P_Flow2 P_Flow3 P_Bfs P_MutableIO.
From Coq Require Import Sorted.

Section GR.
Context (R : list (list half)) (ts : list nat) (src : nat) (V : valid_rows R).
Let n := length R.
Context (Hts : forall t, In t ts -> t < n) (Hsrc : In src ts) (Hnd : NoDup ts).

Lemma Hs : src < n. Proof. auto. Qed.

Lemma row_in x h : In h (nth x R []) -> exists e, slot R x e = Some h.
Proof. intro H. apply In_nth_error in H. exact H. Qed.
Lemma row_tgt x (h : half) : In h (nth x R []) -> fst (fst h) < length R.
Proof. intro H. destruct (row_in x h H) as [e He]. destruct h as [[t w] r]. destruct (V x e t w r He). auto. Qed.

(** the labelling found so far *)
Section Lab.
Context (ok : nat -> half -> bool) (d0 lowb : nat -> nat).
Context (Hlow : forall x t w r, In (t, w, r) (nth x R []) -> ok x (t, w, r) = true -> lowb t <= S (lowb x)).
Context (Hlows : forall t, In t ts -> t <> src -> lowb t = 0).

Record gcom (q : list nat) (tc : list bool) (ds : list nat) (ct : list Z) : Prop := {
  g_ds : length ds = n; g_ct : length ct = 2 * n; g_tc : length tc = n;
  g_src : nth src tc false = true; g_dsrc : nth src ds 0 = n;
  g_q : forall y, In y q -> nth y tc false = true /\ y <> src /\ y < n;
  g_un : forall u, u < n -> nth u tc false = false -> nth u ds 0 = Nat.max (d0 u) n;
  g_lt : forall u, u < n -> nth u tc false = true -> u <> src -> nth u ds 0 + unt tc < n;
  g_snk : forall t, In t ts -> t <> src -> nth t tc false = true /\ nth t ds 0 = 0;
  g_ge : forall u, u < n -> nth u tc false = true -> ~ In u ts -> 1 <= nth u ds 0;
  g_low : forall u, u < n -> nth u tc false = true -> u <> src -> lowb u <= nth u ds 0;
  g_sort : StronglySorted (fun a b => nth a ds 0 <= nth b ds 0) q;
  g_cnt : forall l, 1 <= l < n -> (at_level n ds l <= nth l ct 0)%Z }.

Definition gclosed (tc : list bool) (ds : list nat) (u : nat) (h : half) : Prop :=
  ok u h = true -> nth (fst (fst h)) tc false = true /\ (fst (fst h) = src \/ nth (fst (fst h)) ds 0 <= S (nth u ds 0)).

Definition GJ (q : list nat) (tc : list bool) (a : list nat * list Z) : Prop :=
  gcom q tc (fst a) (snd a) /\
  (forall u y, u < n -> nth u tc false = true -> u <> src -> In y q -> nth u (fst a) 0 <= S (nth y (fst a) 0)) /\
  (forall u, u < n -> nth u tc false = true -> u <> src -> ~ In u q -> forall h, In h (nth u R []) -> gclosed tc (fst a) u h).

Definition GI (x : nat) (l : list half) (q : list nat) (tc : list bool) (a : list nat * list Z) : Prop :=
  gcom q tc (fst a) (snd a) /\ x < n /\ nth x tc false = true /\ x <> src /\
  (forall u, u < n -> nth u tc false = true -> u <> src -> nth u (fst a) 0 <= S (nth x (fst a) 0)) /\
  (forall y, In y q -> nth x (fst a) 0 <= nth y (fst a) 0) /\
  (forall u, u < n -> nth u tc false = true -> u <> src -> ~ In u q -> u <> x -> forall h, In h (nth u R []) -> gclosed tc (fst a) u h) /\
  (exists pre, nth x R [] = pre ++ l /\ forall h, In h pre -> gclosed tc (fst a) x h).

Lemma GI1 x q tc a : GJ (x :: q) tc a -> GI x (nth x R []) q tc a.
Proof.
  intros (C & B & D). destruct (g_q _ _ _ _ C x (or_introl eq_refl)) as (X1 & X2 & X3).
  assert (S := g_sort _ _ _ _ C). inversion S as [|? ? S1 S2]. subst. rewrite Forall_forall in S2.
  split; [destruct C; constructor; auto; intros; apply g_q0; right; auto|]. split; [auto|]. split; [auto|]. split; [auto|].
  split; [intros; apply B; auto; left; reflexivity|]. split; [auto|]. split.
  - intros u Hu Tu Nu Nq Nx. apply D; auto. intros [H|H]; [congruence|contradiction].
  - exists []. split; [reflexivity|]. intros h [].
Qed.

Lemma GI3 x q tc a : GI x [] q tc a -> GJ q tc a.
Proof.
  intros (C & X1 & X2 & X3 & B & S & D & pre & E & P). split; [auto|]. split.
  - intros u y Hu Tu Nu Hy. pose proof (B u Hu Tu Nu). pose proof (S y Hy). lia.
  - intros u Hu Tu Nu Nq h Hh. destruct (Nat.eq_dec u x) as [->|N]; [|apply D; auto]. apply P. rewrite E, app_nil_r in Hh. auto.
Qed.

Lemma sorted_snoc (le : nat -> nat -> Prop) q t : StronglySorted le q -> (forall y, In y q -> le y t) -> StronglySorted le (q ++ [t]).
Proof.
  induction q as [|x q IH]; intros S H; cbn; [repeat constructor|]. inversion S as [|? ? S1 S2]. subst. constructor.
  - apply IH; auto. intros; apply H; right; auto.
  - apply Forall_app. split; [auto|]. constructor; [apply H; left; reflexivity|constructor].
Qed.
Lemma sorted_ext (le le' : nat -> nat -> Prop) q : (forall a b, In a q -> In b q -> le a b -> le' a b) -> StronglySorted le q -> StronglySorted le' q.
Proof.
  induction q as [|x q IH]; intros H S; [constructor|]. inversion S as [|? ? S1 S2]. subst. constructor.
  - apply IH; auto. intros; apply H; auto; right; auto.
  - rewrite Forall_forall in *. intros y Hy. apply H; [left; reflexivity|right; auto|auto].
Qed.

Lemma GI2 x h l q tc a : In h (nth x R []) -> GI x (h :: l) q tc a ->
   let '(q', tc', a') := bfs_edge ok gr_label x (q, tc, a) h in GI x l q' tc' a'.
Proof.
  intros Hh (C & X1 & X2 & X3 & B & S & D & pre & E & P). destruct h as [[t w] r]. destruct a as [ds ct]. unfold bfs_edge. cbn [fst snd] in *.
  pose proof (row_tgt x _ Hh) as Ht. cbn [fst] in Ht.
  assert (E' : nth x R [] = (pre ++ [(t, w, r)]) ++ l) by (rewrite <- app_assoc; exact E).
  destruct (nth t tc false) eqn:T; [|destruct (ok x (t, w, r)) eqn:O].
  - do 7 (split; [assumption|]). exists (pre ++ [(t, w, r)]). split; [auto|]. intros h Hi. apply in_app_or in Hi. destruct Hi as [Hi|[<-|[]]]; [auto|].
    intros _. cbn [fst snd]. split; [auto|]. destruct (Nat.eq_dec t src) as [|N]; [auto|right; apply B; auto].
  - unfold gr_label. set (d := Datatypes.S (nth x ds 0)). set (ds' := upd ds t d). set (ct' := bump _ d 1). set (tc' := upd tc t true).
    pose proof (g_ds _ _ _ _ C) as L1. pose proof (g_tc _ _ _ _ C) as L2. pose proof (g_ct _ _ _ _ C) as L3.
    assert (Ntx : t <> x) by congruence. assert (Nts : t <> src) by (intro; subst; pose proof (g_src _ _ _ _ C); congruence).
    assert (DT : nth t ds' 0 = d) by (apply nth_upd_eq; unfold n in *; lia).
    assert (DO : forall u, u <> t -> nth u ds' 0 = nth u ds 0) by (intros; apply nth_upd_neq; auto).
    assert (TT : nth t tc' false = true) by (apply nth_upd_eq; unfold n in *; lia).
    assert (TO : forall u, u <> t -> nth u tc' false = nth u tc false) by (intros; apply nth_upd_neq; auto).
    assert (UN : Datatypes.S (unt tc') = unt tc) by (apply unt_touch; [unfold n in *; lia|auto]).
    assert (Qt : forall y, In y q -> y <> t) by (intros y Hy ->; destruct (g_q _ _ _ _ C t Hy); congruence).
    assert (TI : forall u, u < n -> nth u tc' false = true -> u <> t -> nth u tc false = true) by (intros u Hu Tu Nu; rewrite TO in Tu; auto).
    assert (CL : forall u h, gclosed tc ds u h -> u <> t -> gclosed tc' ds' u h).
    { intros u h G Nu Ok. destruct (G Ok) as [G1 G2]. assert (fst (fst h) <> t) by (intro Z; rewrite Z in G1; congruence). rewrite TO, !DO by auto. auto. }
    assert (xl : nth x ds 0 + unt tc < n) by (apply (g_lt _ _ _ _ C); auto).
    split; [|split; [auto|split; [rewrite TO by auto; auto|split; [auto|split; [|split; [|split]]]]]]; cbn [fst snd].
    + constructor.
      * unfold ds'. rewrite upd_length. auto.
      * unfold ct'. rewrite !bump_length. auto.
      * unfold tc'. rewrite upd_length. auto.
      * rewrite TO by auto. apply (g_src _ _ _ _ C).
      * rewrite DO by auto. apply (g_dsrc _ _ _ _ C).
      * intros y Hy. apply in_app_or in Hy. destruct Hy as [Hy|[<-|[]]]; [|auto]. rewrite TO by auto. apply (g_q _ _ _ _ C); auto.
      * intros u Hu Tu. destruct (Nat.eq_dec u t) as [->|N]; [congruence|]. rewrite DO by auto. rewrite TO in Tu by auto. apply (g_un _ _ _ _ C); auto.
      * intros u Hu Tu Nu. destruct (Nat.eq_dec u t) as [->|N]; [rewrite DT; unfold d; lia|]. rewrite DO by auto. rewrite TO in Tu by auto.
        pose proof (g_lt _ _ _ _ C u Hu Tu Nu). lia.
      * intros y Hy Ny. destruct (g_snk _ _ _ _ C y Hy Ny). assert (y <> t) by congruence. rewrite TO, DO by auto. auto.
      * intros u Hu Tu Nu. destruct (Nat.eq_dec u t) as [->|N]; [rewrite DT; unfold d; lia|]. rewrite DO by auto. apply (g_ge _ _ _ _ C); auto.
      * intros u Hu Tu Nu. destruct (Nat.eq_dec u t) as [->|N].
        -- rewrite DT. pose proof (Hlow x t w r Hh O). pose proof (g_low _ _ _ _ C x X1 X2 X3). unfold d. lia.
        -- rewrite DO by auto. apply (g_low _ _ _ _ C); auto.
      * apply sorted_snoc.
        -- eapply sorted_ext; [|apply (g_sort _ _ _ _ C)]. cbn. intros y z Hy Hz. rewrite !DO by auto. auto.
        -- intros y Hy. rewrite DT, DO by auto. unfold d. destruct (g_q _ _ _ _ C y Hy) as (Y1 & Y2 & Y3). apply B; auto.
      * apply (cnt_upd R); auto. apply (g_cnt _ _ _ _ C).
    + intros u Hu Tu Nu. rewrite (DO x) by auto. destruct (Nat.eq_dec u t) as [->|N]; [rewrite DT; unfold d; lia|]. rewrite DO by auto. auto.
    + intros y Hy. rewrite (DO x) by auto. apply in_app_or in Hy. destruct Hy as [Hy|[<-|[]]]; [rewrite DO by auto; auto|]. rewrite DT. unfold d. lia.
    + intros u Hu Tu Nu Nq Nx h Hi. assert (u <> t) by (intro; subst; apply Nq; apply in_or_app; right; left; reflexivity).
      apply CL; [|auto]. apply D; auto. intro; apply Nq; apply in_or_app; auto.
    + exists (pre ++ [(t, w, r)]). split; [auto|]. intros h Hi. apply in_app_or in Hi. destruct Hi as [Hi|[<-|[]]]; [apply CL; auto|].
      intros _. cbn [fst snd]. split; [auto|]. right. rewrite DT, DO by auto. reflexivity.
  - do 7 (split; [assumption|]). exists (pre ++ [(t, w, r)]). split; [auto|]. intros h Hi. apply in_app_or in Hi. destruct Hi as [Hi|[<-|[]]]; [auto|].
    intro. congruence.
Qed.

(** the result of the search *)
Lemma lab_run q tc ds ct : length q + unt tc <= n -> GJ q tc (ds, ct) ->
  exists tc' ds' ct', bfs R ok gr_label n q tc (ds, ct) = Some (tc', (ds', ct')) /\ gcom [] tc' ds' ct' /\
    forall u, u < n -> nth u tc' false = true -> u <> src -> forall h, In h (nth u R []) -> gclosed tc' ds' u h.
Proof.
  intros Hq HJ. pose proof HJ as (C & _).
  destruct (bfs_run R ok gr_label GI GJ (fun x h H => row_tgt x h H) GI1 GI2 GI3 n q tc (ds, ct) (g_tc _ _ _ _ C) Hq HJ) as (tc' & [ds' ct'] & X1 & X2 & X3).
  exists tc', ds', ct'. split; [auto|]. destruct X2 as (C' & _ & D). split; [auto|]. intros u Hu Tu Nu h Hh. apply D; auto.
Qed.
End Lab.

(** * the sinks *)
Lemma gr_sinks l ds ct : NoDup l -> (forall t, In t l -> t < n) -> length ds = n -> length ct = 2 * n ->
  (forall i, 1 <= i < n -> (at_level n ds i <= nth i ct 0)%Z) ->
  exists q tc ds' ct', fold_left (gr_sink src) l ([], repeat false n, (ds, ct)) = (q, tc, (ds', ct')) /\
    length tc = n /\ length ds' = n /\ length ct' = 2 * n /\ length q + unt tc = n /\
    (forall t, In t q <-> In t l /\ t <> src) /\
    (forall v, nth v tc false = true <-> In v q) /\
    (forall v, In v q -> nth v ds' 0 = 0) /\ (forall v, ~ In v q -> nth v ds' 0 = nth v ds 0) /\
    (forall i, 1 <= i < n -> (at_level n ds' i <= nth i ct' 0)%Z).
Proof.
  intros Nd Hl L1 L2 C0. induction l as [|t l IH] using rev_ind.
  - exists [], (repeat false n), ds, ct. cbn. split; [reflexivity|]. rewrite repeat_length. do 3 (split; [auto|]). split; [apply unt_repeat|].
    split; [tauto|]. split; [|split; [intros ? []|split; [auto|auto]]].
    intro v. split; [|intros []]. destruct (Nat.lt_ge_cases v n); [rewrite nth_repeat|rewrite nth_overflow by (rewrite repeat_length; auto)]; discriminate.
  - rewrite fold_left_app. cbn [fold_left]. apply NoDup_remove in Nd. rewrite app_nil_r in Nd. destruct Nd as [Nd Nt].
    destruct (IH Nd) as (q & tc & ds' & ct' & -> & A1 & A2 & A3 & A4 & A5 & A6 & A7 & A8 & A9). { intros; apply Hl; apply in_or_app; auto. }
    unfold gr_sink. destruct (Nat.eqb_spec t src) as [->|N].
    + exists q, tc, ds', ct'. do 5 (split; [auto|]). split; [|auto]. intro x. rewrite A5, in_app_iff. cbn. intuition congruence.
    + assert (Ht : t < n) by (apply Hl; apply in_or_app; right; left; reflexivity).
      assert (Nq : ~ In t q) by (rewrite A5; tauto). assert (Tt : nth t tc false = false) by (apply not_true_iff_false; rewrite A6; auto).
      exists (q ++ [t]), (upd tc t true), (upd ds' t 0), (bump (bump ct' (nth t ds' 0) (-1)) 0 1). split; [reflexivity|].
      rewrite !upd_length. do 2 (split; [auto|]). split; [rewrite !bump_length; auto|].
      split; [rewrite app_length; cbn; pose proof (unt_touch tc t ltac:(lia) Tt); lia|].
      split; [|split; [|split; [|split]]].
      * intro x. rewrite !in_app_iff, A5. cbn. intuition congruence.
      * intro v. rewrite in_app_iff. cbn. destruct (Nat.eq_dec v t) as [->|Nv]; [rewrite nth_upd_eq by lia; tauto|]. rewrite nth_upd_neq by auto. rewrite A6. intuition congruence.
      * intros v Hv. destruct (Nat.eq_dec v t) as [->|Nv]; [rewrite nth_upd_eq by lia; reflexivity|]. rewrite nth_upd_neq by auto. apply A7.
        apply in_app_or in Hv. destruct Hv as [Hv|[Hv|[]]]; [auto|congruence].
      * intros v Hv. rewrite nth_upd_neq by (intro; subst; apply Hv; apply in_or_app; right; left; reflexivity). apply A8. intro; apply Hv; apply in_or_app; auto.
      * apply (cnt_upd R); auto.
Qed.

(** * the relabeling as a whole *)
Lemma global_gen (init : bool) (s : prs) (lowb : nat -> nat) :
  let ok := fun (x : nat) (h : half) => if init then true else negb (resid R (p_fl s) (fst (fst h)) (snd h) =? 0)%Z in
  length (p_ds s) = n -> length (p_ct s) = 2 * n -> nth src (p_ds s) 0 = n -> (forall i, 1 <= i < n -> (0 <= nth i (p_ct s) 0)%Z) ->
  (forall v, v < n -> dist s v < 2 * n) ->
  (forall x t w r, In (t, w, r) (nth x R []) -> ok x (t, w, r) = true -> lowb t <= S (lowb x)) ->
  (forall t, In t ts -> t <> src -> lowb t = 0) ->
  (forall x e t w r, slot R x e = Some (t, w, r) -> (flo s x e < Z.of_N w)%Z -> x <> src -> ok t (x, w, e) = true) ->
  (forall e t w r, slot R src e = Some (t, w, r) -> (flo s src e < Z.of_N w)%Z -> n <= S (lowb t)) ->
  (forall x e t w r, slot R x e = Some (t, w, r) -> (flo s x e < Z.of_N w)%Z -> Nat.max (dist s x) n <= S (Nat.max (dist s t) n)) ->
  exists s', global_relabel init R ts src s = Some s' /\ p_fl s' = p_fl s /\ p_ex s' = p_ex s /\ p_ac s' = p_ac s /\ p_q s' = p_q s /\
    labv R (p_fl s) (p_ds s') /\ linv n ts src (p_ds s') (p_ct s') /\
    (forall v, v < n -> lowb v <= dist s' v \/ dist s v <= dist s' v).
Proof.
  intros ok D1 D2 D3 D4 D5 Hlow Hlows Hok Hsr Hmax. unfold global_relabel. fold n.
  set (ds0 := map (fun d => Nat.max d n) (p_ds s)). assert (N0 : forall v, v < n -> nth v ds0 0 = Nat.max (dist s v) n).
  { intros v Hv. unfold ds0. rewrite (nth_indep _ 0 (Nat.max 0 n)) by (rewrite map_length; lia). rewrite (map_nth (fun d => Nat.max d n)). reflexivity. }
  set (ds1 := upd ds0 src n). pose proof Hs as Hs.
  assert (L1 : length ds1 = n) by (unfold ds1, ds0; rewrite upd_length, map_length; auto).
  assert (N1 : forall v, v < n -> nth v ds1 0 = Nat.max (dist s v) n).
  { intros v Hv. unfold ds1. destruct (Nat.eq_dec v src) as [->|N]; [rewrite nth_upd_eq by (unfold ds0; rewrite map_length; lia); lia|].
    rewrite nth_upd_neq by auto. auto. }
  destruct (gr_sinks ts ds1 (p_ct s) Hnd Hts L1 D2) as (q & tc & ds & ct & -> & A1 & A2 & A3 & A4 & A5 & A6 & A7 & A8 & A9); auto.
  { intros i Hi. unfold at_level. rewrite zsum_zero; [auto|]. intros v Hv. rewrite N1 by auto. destruct (Nat.eqb_spec (Nat.max (dist s v) n) i); [lia|reflexivity]. }
  fold ok. assert (NS : ~ In src q) by (rewrite A5; tauto).
  assert (TS : nth src tc false = false) by (apply not_true_iff_false; rewrite A6; auto).
  pose proof (unt_touch tc src ltac:(lia) TS) as US.
  set (tc0 := upd tc src true) in *.
  assert (T0 : forall v, v < n -> (nth v tc0 false = true <-> v = src \/ In v q)).
  { intros v Hv. unfold tc0. destruct (Nat.eq_dec v src) as [->|N]; [rewrite nth_upd_eq by lia; tauto|]. rewrite nth_upd_neq by auto. rewrite A6. tauto. }
  assert (QL : forall y, In y q -> y < n /\ y <> src) by (intros y Hy; apply A5 in Hy; destruct Hy; auto).
  destruct (lab_run ok (fun v => dist s v) lowb Hlow Hlows q tc0 ds ct) as (tc' & ds' & ct' & -> & C & CL).
  { lia. }
  { split; [|split]; cbn [fst snd].
    - constructor; auto.
      + unfold tc0. rewrite upd_length. auto.
      + apply T0; auto.
      + rewrite A8 by auto. rewrite N1 by auto. lia.
      + intros y Hy. destruct (QL y Hy). split; [apply T0; auto|auto].
      + intros u Hu Tu. rewrite A8; [auto|]. intro X. assert (nth u tc0 false = true) by (apply T0; auto). congruence.
      + intros u Hu Tu Nu. apply T0 in Tu; [|auto]. destruct Tu as [|Tu]; [contradiction|]. rewrite A7 by auto. lia.
      + intros t Ht Nt. assert (In t q) by (apply A5; auto). split; [apply T0; auto|auto].
      + intros u Hu Tu Nu. apply T0 in Tu; [|auto]. destruct Tu as [->|Tu]; [contradiction|]. apply A5 in Tu. tauto.
      + intros u Hu Tu Nu. apply T0 in Tu; [|auto]. destruct Tu as [->|Tu]; [contradiction|]. apply A5 in Tu. rewrite Hlows; [lia|tauto|tauto].
      + assert (Z : forall y, In y q -> nth y ds 0 = 0) by auto. clear -Z. induction q as [|x q IH]; [constructor|]. constructor.
        * apply IH. intros; apply Z; right; auto.
        * apply Forall_forall. intros y Hy. rewrite (Z x (or_introl eq_refl)). lia.
    - intros u y Hu Tu Nu Hy. apply T0 in Tu; [|auto]. destruct Tu as [|Tu]; [contradiction|]. rewrite (A7 u) by auto. lia.
    - intros u Hu Tu Nu Nq. apply T0 in Tu; [|auto]. tauto. }
  eexists. split; [reflexivity|]. cbn [p_fl p_ex p_ac p_q p_ds p_ct]. do 4 (split; [reflexivity|]).
  assert (UNL : forall u, u < n -> nth u tc' false = false -> nth u ds' 0 = Nat.max (dist s u) n) by (apply (g_un _ _ _ _ _ _ C)).
  assert (LT : forall u, u < n -> nth u tc' false = true -> u <> src -> nth u ds' 0 < n).
  { intros u Hu Tu Nu. pose proof (g_lt _ _ _ _ _ _ C u Hu Tu Nu). lia. }
  split; [|split].
  - intros x e t w r S Re. destruct (V x e t w r S) as [Ht [Nt S']]. destruct (slot_lt _ _ _ _ S) as [Hx _].
    destruct (nth t tc' false) eqn:Tt.
    + destruct (Nat.eq_dec t src) as [->|Nts].
      * rewrite (g_dsrc _ _ _ _ _ _ C). destruct (nth x tc' false) eqn:Tx; [pose proof (LT x Hx Tx ltac:(auto)); lia|]. rewrite UNL by auto.
        pose proof (Hmax x e src w r S Re). fold n. lia.
      * destruct (Nat.eq_dec x src) as [->|Nx].
        -- rewrite (g_dsrc _ _ _ _ _ _ C). pose proof (Hsr e t w r S Re). pose proof (g_low _ _ _ _ _ _ C t Ht Tt Nts). lia.
        -- destruct (CL t Ht Tt Nts (x, w, e) ltac:(eapply nth_error_In; exact S') ltac:(eapply Hok; eauto)) as [_ [Y|Y]]; [contradiction|exact Y].
    + rewrite (UNL t) by auto. destruct (nth x tc' false) eqn:Tx; [|rewrite UNL by auto; eapply Hmax; eauto].
      destruct (Nat.eq_dec x src) as [->|Nx]; [rewrite (g_dsrc _ _ _ _ _ _ C); lia|]. pose proof (LT x Hx Tx Nx). lia.
  - constructor.
    + apply (g_ds _ _ _ _ _ _ C). + apply (g_dsrc _ _ _ _ _ _ C).
    + intros t Ht Nt. apply (g_snk _ _ _ _ _ _ C t Ht Nt).
    + intros v Hv Nv. destruct (nth v tc' false) eqn:Tv; [apply (g_ge _ _ _ _ _ _ C); auto|]. rewrite UNL by auto. lia.
    + intros v Hv. destruct (nth v tc' false) eqn:Tv; [|rewrite UNL by auto; pose proof (D5 v Hv); lia].
      destruct (Nat.eq_dec v src) as [->|Nv]; [rewrite (g_dsrc _ _ _ _ _ _ C); lia|]. pose proof (LT v Hv Tv Nv). lia.
    + apply (g_ct _ _ _ _ _ _ C). + apply (g_cnt _ _ _ _ _ _ C).
  - intros v Hv. destruct (nth v tc' false) eqn:Tv; [|right; rewrite UNL by auto; lia].
    destruct (Nat.eq_dec v src) as [->|Nv]; [right; rewrite (g_dsrc _ _ _ _ _ _ C); lia|]. left. apply (g_low _ _ _ _ _ _ C); auto.
Qed.

Lemma global_ok K s : inv R ts src K s n ->
  exists s', global_relabel false R ts src s = Some s' /\ inv R ts src K s' n /\ p_fl s' = p_fl s /\ p_ex s' = p_ex s /\ p_q s' = p_q s /\
    forall v, v < n -> dist s v <= dist s' v.
Proof.
  intros [F L Q LI].
  destruct (global_gen false s (fun v => dist s v)) as (s' & E & E1 & E2 & E3 & E4 & L' & LI' & M).
  - apply (l_len _ _ _ _ _ LI). - apply (l_clen _ _ _ _ _ LI). - apply (l_src _ _ _ _ _ LI).
  - intros i Hi. pose proof (l_cnt _ _ _ _ _ LI i Hi) as C.
    assert (0 <= at_level n (p_ds s) i)%Z by (apply zsum_nonneg; intros; destruct (dist s i0 =? i); lia). fold n in C. lia.
  - apply (l_lt _ _ _ _ _ LI).
  - intros x t w r H O. cbn [fst snd] in O. destruct (row_in _ _ H) as [e S]. destruct (V x e t w r S) as [_ [_ S']].
    change (slot R t r = Some (x, w, e)) in S'. unfold resid in O. rewrite S' in O. apply negb_true_iff, Z.eqb_neq in O.
    pose proof (f_cap _ _ _ _ _ F t r x w e S'). apply (L t r x w e S'). lia.
  - apply (l_snk _ _ _ _ _ LI).
  - intros x e t w r S Re _. cbn [fst snd]. unfold resid. rewrite S. apply negb_true_iff, Z.eqb_neq. lia.
  - intros e t w r S Re. pose proof (L src e t w r S Re). pose proof (l_src _ _ _ _ _ LI) as X. fold n in X. lia.
  - intros x e t w r S Re. pose proof (L x e t w r S Re). lia.
  - exists s'. split; [auto|]. split; [constructor; rewrite ?E1, ?E2, ?E3, ?E4; auto|]. do 3 (split; [auto|]). intros v Hv. destruct (M v Hv); auto.
Qed.
End GR.
