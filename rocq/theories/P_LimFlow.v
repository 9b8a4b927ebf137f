(* P_LimFlow.v - proofs about the limited push_relabel: the first labelling, the flag, the main loop. *)
From Verif Require Import SpecCut LibZ P_Mutable M_PushRelabel M_LimFlow P_Flow P_Flow2 P_Flow3 P_Bfs P_Flow4 P_Flow5 P_Flow6 P_MutableIO.
From Coq Require Import Sorted.

Section Lim.
Context (R : list (list half)) (ts : list nat) (src : nat) (V : valid_rows R).
Let n := length R.
Context (Hts : forall t, In t ts -> t < n) (Hsrc : In src ts) (Hnd : NoDup ts).
Context (D : nat).

(** * The search of bounded depth *)
Record lcom (q : list nat) (tc : list bool) (ds : list nat) (ct : list Z) : Prop := {
  k_ds : length ds = n; k_ct : length ct = 2 * n; k_tc : length tc = n;
  k_src : nth src tc false = true; k_dsrc : nth src ds 0 = n;
  k_q : forall y, In y q -> nth y tc false = true /\ y <> src /\ y < n;
  k_un : forall u, u < n -> nth u tc false = false -> nth u ds 0 = S D;
  k_le : forall u, u < n -> nth u tc false = true -> u <> src -> nth u ds 0 <= D;
  k_snk : forall t, In t ts -> t <> src -> nth t tc false = true /\ nth t ds 0 = 0;
  k_ge : forall u, u < n -> nth u tc false = true -> ~ In u ts -> 1 <= nth u ds 0;
  k_sort : StronglySorted (fun a b => nth a ds 0 <= nth b ds 0) q;
  k_qd : forall y, In y q -> nth y ds 0 < D;
  k_cnt : forall l, 1 <= l < n -> (at_level n ds l <= nth l ct 0)%Z }.

Definition lclosed (tc : list bool) (ds : list nat) (u : nat) (h : half) : Prop :=
  nth (fst (fst h)) tc false = true /\ (fst (fst h) = src \/ nth (fst (fst h)) ds 0 <= S (nth u ds 0)).

Definition LJ (q : list nat) (tc : list bool) (a : list nat * list Z) : Prop :=
  lcom q tc (fst a) (snd a) /\
  (forall u y, u < n -> nth u tc false = true -> u <> src -> In y q -> nth u (fst a) 0 <= S (nth y (fst a) 0)) /\
  (forall u, u < n -> nth u tc false = true -> u <> src -> nth u (fst a) 0 < D -> ~ In u q -> forall h, In h (nth u R []) -> lclosed tc (fst a) u h).

Definition LI (x : nat) (l : list half) (q : list nat) (tc : list bool) (a : list nat * list Z) : Prop :=
  lcom q tc (fst a) (snd a) /\ x < n /\ nth x tc false = true /\ x <> src /\ nth x (fst a) 0 < D /\
  (forall u, u < n -> nth u tc false = true -> u <> src -> nth u (fst a) 0 <= S (nth x (fst a) 0)) /\
  (forall y, In y q -> nth x (fst a) 0 <= nth y (fst a) 0) /\
  (forall u, u < n -> nth u tc false = true -> u <> src -> nth u (fst a) 0 < D -> ~ In u q -> u <> x -> forall h, In h (nth u R []) -> lclosed tc (fst a) u h) /\
  (exists pre, nth x R [] = pre ++ l /\ forall h, In h pre -> lclosed tc (fst a) x h).

Lemma LI1 x q tc a : LJ (x :: q) tc a -> LI x (nth x R []) q tc a.
Proof.
  intros (C & B & E). destruct (k_q _ _ _ _ C x (or_introl eq_refl)) as (X1 & X2 & X3). pose proof (k_qd _ _ _ _ C x (or_introl eq_refl)) as X4.
  assert (S := k_sort _ _ _ _ C). inversion S as [|? ? S1 S2]. subst. rewrite Forall_forall in S2.
  split; [destruct C; constructor; auto; intros; [apply k_q0|apply k_qd0]; right; auto|]. split; [auto|]. split; [auto|]. split; [auto|]. split; [auto|].
  split; [intros; apply B; auto; left; reflexivity|]. split; [auto|]. split.
  - intros u Hu Tu Nu Du Nq Nx. apply E; auto. intros [H|H]; [congruence|contradiction].
  - exists []. split; [reflexivity|]. intros h [].
Qed.

Lemma LI3 x q tc a : LI x [] q tc a -> LJ q tc a.
Proof.
  intros (C & X1 & X2 & X3 & X4 & B & S & E & pre & Er & P). split; [auto|]. split.
  - intros u y Hu Tu Nu Hy. pose proof (B u Hu Tu Nu). pose proof (S y Hy). lia.
  - intros u Hu Tu Nu Du Nq h Hh. destruct (Nat.eq_dec u x) as [->|N]; [|apply E; auto]. apply P. rewrite Er, app_nil_r in Hh. auto.
Qed.

Lemma LI2 x h l q tc a : In h (nth x R []) -> LI x (h :: l) q tc a ->
   let '(q', tc', a') := lim_edge D x (q, tc, a) h in LI x l q' tc' a' /\ length tc' = length tc /\ length q' + unt tc' <= length q + unt tc.
Proof.
  intros Hh (C & X1 & X2 & X3 & X4 & B & S & Ex & pre & E & P). destruct h as [[t w] r]. destruct a as [ds ct]. unfold lim_edge. cbn [fst snd] in *.
  pose proof (row_tgt R V x _ Hh) as Ht. cbn [fst] in Ht. fold n in Ht.
  assert (E' : nth x R [] = (pre ++ [(t, w, r)]) ++ l) by (rewrite <- app_assoc; exact E).
  destruct (nth t tc false) eqn:T.
  - split; [|auto]. do 8 (split; [assumption|]). exists (pre ++ [(t, w, r)]). split; [auto|]. intros h Hi. apply in_app_or in Hi. destruct Hi as [Hi|[<-|[]]]; [auto|].
    unfold lclosed. cbn [fst snd]. split; [auto|]. destruct (Nat.eq_dec t src) as [|N]; [auto|right; apply B; auto].
  - unfold gr_label. set (d := Datatypes.S (nth x ds 0)). set (ds' := upd ds t d). set (ct' := M_PushRelabel.bump _ d 1). set (tc' := upd tc t true). cbn [fst].
    pose proof (k_ds _ _ _ _ C) as L1. pose proof (k_tc _ _ _ _ C) as L2. pose proof (k_ct _ _ _ _ C) as L3.
    assert (Ntx : t <> x) by congruence. assert (Nts : t <> src) by (intro; subst; pose proof (k_src _ _ _ _ C); congruence).
    assert (DT : nth t ds' 0 = d) by (apply nth_upd_eq; unfold n in *; lia).
    assert (DO : forall u, u <> t -> nth u ds' 0 = nth u ds 0) by (intros; apply nth_upd_neq; auto).
    assert (TT : nth t tc' false = true) by (apply nth_upd_eq; unfold n in *; lia).
    assert (TO : forall u, u <> t -> nth u tc' false = nth u tc false) by (intros; apply nth_upd_neq; auto).
    assert (UN : Datatypes.S (unt tc') = unt tc) by (apply unt_touch; [unfold n in *; lia|auto]).
    assert (Qt : forall y, In y q -> y <> t) by (intros y Hy ->; destruct (k_q _ _ _ _ C t Hy); congruence).
    assert (CL : forall u h, lclosed tc ds u h -> u <> t -> lclosed tc' ds' u h).
    { intros u h [G1 G2] Nu. unfold lclosed. assert (fst (fst h) <> t) by (intro Z; rewrite Z in G1; congruence). rewrite TO, !DO by auto. auto. }
    rewrite DT. set (q' := if d <? D then q ++ [t] else q).
    assert (Q' : forall y, In y q' -> In y q \/ (y = t /\ d < D)).
    { intros y Hy. unfold q' in Hy. destruct (Nat.ltb_spec d D); [|auto]. apply in_app_or in Hy. destruct Hy as [|[<-|[]]]; auto. }
    assert (Qi : forall y, In y q -> In y q') by (intros y Hy; unfold q'; destruct (d <? D); [apply in_or_app|]; auto).
    split; [|split; [unfold tc'; apply upd_length|unfold q'; destruct (d <? D); rewrite ?app_length; cbn [length]; lia]].
    split; [|split; [auto|split; [rewrite TO by auto; auto|split; [auto|split; [|split; [|split; [|split]]]]]]]; cbn [fst snd].
    + constructor.
      * unfold ds'. rewrite upd_length. auto.
      * unfold ct'. rewrite !bump_length. auto.
      * unfold tc'. rewrite upd_length. auto.
      * rewrite TO by auto. apply (k_src _ _ _ _ C).
      * rewrite DO by auto. apply (k_dsrc _ _ _ _ C).
      * intros y Hy. apply Q' in Hy. destruct Hy as [Hy|[-> _]]; [|auto]. rewrite TO by auto. apply (k_q _ _ _ _ C); auto.
      * intros u Hu Tu. destruct (Nat.eq_dec u t) as [->|N]; [congruence|]. rewrite DO by auto. rewrite TO in Tu by auto. apply (k_un _ _ _ _ C); auto.
      * intros u Hu Tu Nu. destruct (Nat.eq_dec u t) as [->|N]; [rewrite DT; unfold d; lia|]. rewrite DO by auto. rewrite TO in Tu by auto. apply (k_le _ _ _ _ C u Hu Tu Nu).
      * intros y Hy Ny. destruct (k_snk _ _ _ _ C y Hy Ny). assert (y <> t) by congruence. rewrite TO, DO by auto. auto.
      * intros u Hu Tu Nu. destruct (Nat.eq_dec u t) as [->|N]; [rewrite DT; unfold d; lia|]. rewrite DO by auto. rewrite TO in Tu by auto. apply (k_ge _ _ _ _ C); auto.
      * assert (S0 : StronglySorted (fun a b => nth a ds' 0 <= nth b ds' 0) q).
        { eapply sorted_ext; [|apply (k_sort _ _ _ _ C)]. cbn. intros y z Hy Hz. rewrite !DO by auto. auto. }
        unfold q'. destruct (d <? D); [|auto]. apply sorted_snoc; [auto|].
        intros y Hy. rewrite DT, DO by auto. unfold d. destruct (k_q _ _ _ _ C y Hy) as (Y1 & Y2 & Y3). apply B; auto.
      * intros y Hy. apply Q' in Hy. destruct Hy as [Hy|[-> Hy]]; [|rewrite DT; auto]. rewrite DO by auto. apply (k_qd _ _ _ _ C); auto.
      * apply (cnt_upd R); auto. apply (k_cnt _ _ _ _ C).
    + rewrite DO by auto. auto.
    + intros u Hu Tu Nu. rewrite (DO x) by auto. destruct (Nat.eq_dec u t) as [->|N]; [rewrite DT; unfold d; lia|]. rewrite DO by auto. rewrite TO in Tu by auto. auto.
    + intros y Hy. rewrite (DO x) by auto. apply Q' in Hy. destruct Hy as [Hy|[-> _]]; [rewrite DO by auto; auto|]. rewrite DT. unfold d. lia.
    + intros u Hu Tu Nu Du Nq Nx h Hi. assert (u <> t).
      { intro; subst. rewrite DT in Du. apply Nq. unfold q'. destruct (Nat.ltb_spec d D); [|lia]. apply in_or_app; right; left; reflexivity. }
      apply CL; [|auto]. rewrite TO in Tu by auto. rewrite DO in Du by auto. apply Ex; auto.
    + exists (pre ++ [(t, w, r)]). split; [auto|]. intros h Hi. apply in_app_or in Hi. destruct Hi as [Hi|[<-|[]]]; [apply CL; auto|].
      unfold lclosed. cbn [fst snd]. split; [auto|]. right. rewrite DT, DO by auto. reflexivity.
Qed.

Lemma lim_row x l : (forall h, In h l -> In h (nth x R [])) -> forall q tc a, LI x l q tc a ->
  exists q' tc' a', fold_left (lim_edge D x) l (q, tc, a) = (q', tc', a') /\ LI x [] q' tc' a' /\ length q' + unt tc' <= length q + unt tc.
Proof.
  induction l as [|h l IH]; intros Hl q tc a HI; cbn [fold_left].
  - exists q, tc, a. auto.
  - pose proof (LI2 x h l q tc a (Hl h (or_introl eq_refl)) HI) as HI'. destruct (lim_edge D x (q, tc, a) h) as [[q1 tc1] a1]. destruct HI' as (HI1 & L1 & U1).
    destruct (IH (fun h Hh => Hl h (or_intror Hh)) _ _ _ HI1) as (q' & tc' & a' & X1 & X2 & X3). exists q', tc', a'. split; [auto|]. split; [auto|lia].
Qed.

Lemma lim_run fuel : forall q tc a, length q + unt tc <= fuel -> LJ q tc a ->
  exists tc' a', lim_bfs R D fuel q tc a = Some (tc', a') /\ LJ [] tc' a'.
Proof.
  induction fuel as [|k IH]; intros q tc a Hf HJ.
  - destruct q as [|x q]; [|cbn in Hf; lia]. cbn. exists tc, a. auto.
  - destruct q as [|x q]; [cbn; exists tc, a; auto|]. cbn [lim_bfs].
    destruct (lim_row x (nth x R []) (fun h H => H) q tc a (LI1 _ _ _ _ HJ)) as (q' & tc' & a' & -> & X2 & X3).
    apply IH; [cbn in Hf; lia|]. eapply LI3; eauto.
Qed.

(** * The first labelling *)
Lemma lim_relabel_ok K s : D <= n -> (exists t, In t ts /\ t <> src) -> finv R src K (p_fl s) (p_ex s) -> qinv n ts (p_ex s) (p_ac s) (p_q s) n ->
  p_ct s = upd (upd (repeat 0%Z (2 * n)) 0 (Z.of_nat n - 1)%Z) n 1%Z ->
  (forall e t w r, slot R src e = Some (t, w, r) -> flo s src e = Z.of_N w) ->
  exists s0, lim_relabel D R ts src s = Some s0 /\ inv R ts src K s0 n /\ p_ex s0 = p_ex s.
Proof.
  intros HD (t0 & It0 & Nt0) F Q Ct Sat. assert (Hs : src < n) by auto. pose proof (Hts t0 It0) as Ht0.
  assert (N2 : 2 <= n) by lia. unfold lim_relabel. fold n. destruct (Nat.leb_spec (2 * n) (S D)); [lia|].
  set (ct := upd _ (S D) _). set (ds1 := upd (repeat (S D) n) src n).
  assert (L1 : length ds1 = n) by (unfold ds1; rewrite upd_length, repeat_length; auto).
  assert (L2 : length ct = 2 * n) by (unfold ct; rewrite !upd_length, Ct, !upd_length, repeat_length; auto).
  assert (N1 : forall v, v < n -> nth v ds1 0 = if v =? src then n else S D).
  { intros v Hv. unfold ds1. destruct (Nat.eqb_spec v src) as [->|N]; [apply nth_upd_eq; rewrite repeat_length; auto|]. rewrite nth_upd_neq by auto.
    rewrite (nth_indep _ 0 (S D)) by (rewrite repeat_length; auto). apply nth_repeat'. }
  destruct (gr_sinks R ts src Hts ts ds1 ct Hnd Hts L1 L2) as (q & tc & ds & ct1 & EG & A1 & A2 & A3 & A4 & A5 & A6 & A7 & A8 & A9).
  { intros i Hi. fold n in Hi. unfold at_level, ct. destruct (Nat.eq_dec i (S D)) as [->|Ni].
    - rewrite nth_upd_eq by (rewrite upd_length, Ct, !upd_length, repeat_length; lia). fold n.
      assert (E : zsum n (fun v => if nth v ds1 0 =? S D then 1%Z else 0%Z) = zsum n (fun v => (1 - (if Nat.eqb v src then 1 else 0))%Z)).
      { apply zsum_ext. intros v Hv. rewrite N1 by auto. destruct (Nat.eqb_spec v src); [destruct (Nat.eqb_spec n (S D)); lia|]. rewrite Nat.eqb_refl. lia. }
      rewrite E, zsum_sub. rewrite (zsum_single n src (fun _ => 1%Z)) by auto. assert (C1 : zsum n (fun _ => 1%Z) = Z.of_nat n).
      { clear. unfold zsum, zs. rewrite <- (seq_length n 0) at 2. generalize (seq 0 n). induction l as [|x l IH]; [reflexivity|]. cbn [fold_right length]. lia. }
      lia.
    - fold n. rewrite nth_upd_neq by auto. rewrite Ct. rewrite !nth_upd_neq by lia. rewrite nth_repeat'. rewrite zsum_zero; [lia|]. intros v Hv. rewrite N1 by auto.
      destruct (v =? src); [destruct (Nat.eqb_spec n i); lia|destruct (Nat.eqb_spec (S D) i); congruence]. }
  fold n in A1, A2, A3, A4, A9, EG. rewrite EG.
  assert (NS : ~ In src q) by (rewrite A5; tauto).
  assert (TS : nth src tc false = false) by (apply not_true_iff_false; rewrite A6; auto).
  assert (QL : forall y, In y q -> y < n /\ y <> src) by (intros y Hy; apply A5 in Hy; destruct Hy; auto).
  assert (DS : nth src ds 0 = n) by (rewrite A8 by auto; rewrite N1 by auto; rewrite Nat.eqb_refl; reflexivity).
  assert (DO : forall v, v < n -> v <> src -> ~ In v q -> nth v ds 0 = S D).
  { intros v Hv Nv Iq. rewrite A8 by auto. rewrite N1 by auto. destruct (Nat.eqb_spec v src); [contradiction|reflexivity]. }
  destruct (Nat.leb_spec (S D) 1) as [D0|D1].
  - eexists. split; [reflexivity|]. split; [|reflexivity]. constructor; cbn [p_fl p_ex p_ds p_ct p_ac p_q]; auto.
    + intros x e t w r Sl Re. destruct (V x e t w r Sl) as [Ht _]. destruct (slot_lt _ _ _ _ Sl) as [Hx _].
      destruct (Nat.eq_dec x src) as [->|Nx]; [rewrite (Sat _ _ _ _ Sl) in Re; lia|].
      destruct (in_dec Nat.eq_dec x q) as [I|I]; [rewrite A7 by auto; lia|]. rewrite DO by auto. lia.
    + constructor; auto.
      * intros t I N. apply A7. apply A5. auto.
      * intros v Hv I. rewrite DO; auto; [lia|intro; subst; auto|]. intro J. apply A5 in J. tauto.
      * intros v Hv. destruct (Nat.eq_dec v src) as [->|Nv]; [lia|]. destruct (in_dec Nat.eq_dec v q) as [I|I]; [rewrite A7 by auto; lia|]. rewrite DO by auto. lia.
  - pose proof (unt_touch tc src ltac:(lia) TS) as US. set (tc0 := upd tc src true) in *.
    assert (T0 : forall v, v < n -> (nth v tc0 false = true <-> v = src \/ In v q)).
    { intros v Hv. unfold tc0. destruct (Nat.eq_dec v src) as [->|N]; [rewrite nth_upd_eq by lia; tauto|]. rewrite nth_upd_neq by auto. rewrite A6. tauto. }
    destruct (lim_run n q tc0 (ds, ct1)) as (tc' & [ds' ct'] & -> & (C & _ & CL)).
    { lia. }
    { split; [|split]; cbn [fst snd].
      - constructor; auto.
        + unfold tc0. rewrite upd_length. auto.
        + apply T0; auto.
        + intros y Hy. destruct (QL y Hy). split; [apply T0; auto|auto].
        + intros u Hu Tu. apply DO; auto; intro X; assert (nth u tc0 false = true) by (apply T0; auto); congruence.
        + intros u Hu Tu Nu. apply T0 in Tu; [|auto]. destruct Tu as [|Tu]; [contradiction|]. rewrite A7 by auto. lia.
        + intros t Ht Nt. assert (In t q) by (apply A5; auto). split; [apply T0; auto|auto].
        + intros u Hu Tu Nu. apply T0 in Tu; [|auto]. destruct Tu as [->|Tu]; [contradiction|]. apply A5 in Tu. tauto.
        + assert (Z : forall y, In y q -> nth y ds 0 = 0) by auto. clear -Z. induction q as [|x q IH]; [constructor|]. constructor.
          * apply IH. intros; apply Z; right; auto.
          * apply Forall_forall. intros y Hy. rewrite (Z x (or_introl eq_refl)). lia.
        + intros y Hy. rewrite A7 by auto. lia.
      - intros u y Hu Tu Nu Hy. apply T0 in Tu; [|auto]. destruct Tu as [|Tu]; [contradiction|]. rewrite (A7 u) by auto. lia.
      - intros u Hu Tu Nu Du Nq. apply T0 in Tu; [|auto]. tauto. }
    cbn [fst snd] in C, CL. eexists. split; [reflexivity|]. split; [|reflexivity]. constructor; cbn [p_fl p_ex p_ds p_ct p_ac p_q]; auto.
    + intros x e t w r Sl Re. destruct (V x e t w r Sl) as [Ht [Nt S']]. destruct (slot_lt _ _ _ _ Sl) as [Hx _]. fold n in Ht, Hx.
      destruct (Nat.eq_dec x src) as [->|Nx]; [rewrite (Sat _ _ _ _ Sl) in Re; lia|].
      assert (Lx : nth x ds' 0 <= S D) by (destruct (nth x tc' false) eqn:Tx; [pose proof (k_le _ _ _ _ C x Hx Tx Nx); lia|rewrite (k_un _ _ _ _ C) by auto; lia]).
      destruct (Nat.eq_dec t src) as [->|Ns]; [rewrite (k_dsrc _ _ _ _ C); lia|].
      destruct (nth t tc' false) eqn:Tt; [|rewrite (k_un _ _ _ _ C t) by auto; lia].
      destruct (Nat.lt_ge_cases (nth t ds' 0) D) as [Dt|Dt]; [|lia].
      destruct (CL t Ht Tt Ns Dt (fun X => X) (x, w, e) ltac:(eapply nth_error_In; exact S')) as [_ [Y|Y]]; [contradiction|exact Y].
    + constructor.
      * apply (k_ds _ _ _ _ C). * apply (k_dsrc _ _ _ _ C).
      * intros t Ht Nt. apply (k_snk _ _ _ _ C t Ht Nt).
      * intros v Hv Nv. destruct (nth v tc' false) eqn:Tv; [apply (k_ge _ _ _ _ C); auto|]. rewrite (k_un _ _ _ _ C) by auto. lia.
      * intros v Hv. destruct (Nat.eq_dec v src) as [->|Nv]; [rewrite (k_dsrc _ _ _ _ C); lia|].
        destruct (nth v tc' false) eqn:Tv; [pose proof (k_le _ _ _ _ C v Hv Tv Nv); lia|rewrite (k_un _ _ _ _ C) by auto; lia].
      * apply (k_ct _ _ _ _ C). * apply (k_cnt _ _ _ _ C).
Qed.
End Lim.
