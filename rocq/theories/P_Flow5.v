(* P_Flow5.v - proofs about push_relabel: initialisation, the main loop and its termination. *)
From Verif Require Import SpecCut LibZ P_Mutable M_PushRelabel P_Flow P_Flow2 P_Flow3 P_Flow4 P_MutableIO.

Lemma nth_repeat' {A} (x : A) n i : nth i (repeat x n) x = x.
Proof. destruct (Nat.lt_ge_cases i n); [apply nth_repeat|apply nth_overflow; rewrite repeat_length; auto]. Qed.

Section PR.
Context (R : list (list half)) (ts : list nat) (src : nat) (V : valid_rows R).
Let n := length R.
Context (Hts : forall t, In t ts -> t < n) (Hsrc : In src ts) (Hnd : NoDup ts).

Lemma zero_flow_row v : nth v (zero_flow R) [] = repeat 0%Z (rl R v).
Proof.
  unfold zero_flow, rl. change (@nil Z) with ((fun row : list half => repeat 0%Z (length row)) []). rewrite map_nth. reflexivity.
Qed.
Lemma zero_flow_at v e : eflow (zero_flow R) v e = 0%Z.
Proof. unfold eflow. rewrite zero_flow_row. apply nth_repeat'. Qed.
Lemma zero_Phi u v : Phi R (zero_flow R) u v = 0%Z.
Proof. unfold Phi. apply zsum_zero. intros e _. destruct (slot R u e) as [[[t w] r]|]; [|reflexivity]. rewrite zero_flow_at. destruct (t =? v); reflexivity. Qed.

Lemma finv_zero : finv R src 0 (zero_flow R) (repeat 0%Z n).
Proof.
  constructor.
  - apply map_length. - intro v. rewrite zero_flow_row. apply repeat_length. - apply repeat_length.
  - intros. rewrite zero_flow_at. lia. - intros. rewrite !zero_flow_at. reflexivity.
  - intros. rewrite !zero_Phi. reflexivity.
  - intros v Hv. rewrite nth_repeat', zsum_zero by (intros; apply zero_Phi). destruct (v =? src); reflexivity.
  - intros. rewrite nth_repeat'. lia.
Qed.

Lemma finv_supply K fl ex w : finv R src K fl ex -> finv R src (K + Z.of_N w) fl (upd ex src (nth src ex 0 + Z.of_N w)%Z).
Proof.
  intros [A B C D E F G H]. assert (Hs : src < n) by auto. constructor; auto.
  - rewrite upd_length. auto.
  - intros v Hv. destruct (Nat.eqb_spec v src) as [->|N].
    + rewrite nth_upd_eq by (unfold n in *; lia). rewrite G by auto. rewrite Nat.eqb_refl. lia.
    + rewrite nth_upd_neq by auto. rewrite G by auto. destruct (Nat.eqb_spec v src); [contradiction|]. reflexivity.
  - intros v Hv. destruct (Nat.eq_dec v src) as [->|N].
    + rewrite nth_upd_eq by (unfold n in *; lia). pose proof (H src Hs). lia.
    + rewrite nth_upd_neq by auto. auto.
Qed.

Lemma marks l a : length a = n -> (forall t, In t l -> t < n) -> length (fold_left (fun a t => upd a t true) l a) = n /\
  forall v, v < n -> (nth v (fold_left (fun a t => upd a t true) l a) false = true <-> In v l \/ nth v a false = true).
Proof.
  revert a. induction l as [|t l IH]; intros a Ha Hl; cbn [fold_left]; [split; [auto|intros; cbn; tauto]|].
  assert (Ht : t < n) by (apply Hl; left; reflexivity).
  destruct (IH (upd a t true)) as [A B]; [rewrite upd_length; auto|intros; apply Hl; right; auto|]. split; [auto|]. intros v Hv.
  rewrite B by auto. cbn. destruct (Nat.eq_dec v t) as [->|N]; [rewrite nth_upd_eq by lia; tauto|]. rewrite nth_upd_neq by auto. intuition congruence.
Qed.

(** supply of the source: the weights of its edges *)
Definition supply (k : nat) : Z := zsum k (fun e => match slot R src e with Some (_, w, _) => Z.of_N w | None => 0%Z end).

(** the state before the loop of init, and after k rounds of it *)
Definition init0 : prs :=
  mk_prs (zero_flow R) (repeat 0%Z n) (upd (repeat 0 n) src n) (fold_left (fun a t => upd a t true) ts (repeat false n))
    (upd (upd (repeat 0%Z (2 * n)) 0 (Z.of_nat n - 1)%Z) n 1%Z) [].
Lemma init_prefix k : k <= rl R src -> let s := fold_left (init_edge R src) (seq 0 k) init0 in
    finv R src (supply k) (p_fl s) (p_ex s) /\ p_ds s = upd (repeat 0 n) src n /\ p_ct s = upd (upd (repeat 0%Z (2 * n)) 0 (Z.of_nat n - 1)%Z) n 1%Z /\
    qinv n ts (p_ex s) (p_ac s) (p_q s) src /\ exc s src = 0%Z /\
    (forall e t w r, e < k -> slot R src e = Some (t, w, r) -> flo s src e = Z.of_N w) /\ (forall e, k <= e -> flo s src e = 0%Z).
Proof.
  assert (Hs : src < n) by auto. unfold init0. set (ct := upd (upd _ _ _) _ _). set (ac := fold_left _ ts _). set (s0 := mk_prs _ _ _ _ _ _).
  induction k as [|k IH]; intro Hk; cbv zeta in *.
    - cbn [seq fold_left]. unfold s0. cbn [p_fl p_ex p_ds p_ct p_ac p_q].
      split; [apply finv_zero|]. split; [reflexivity|]. split; [reflexivity|]. split; [|split; [apply nth_repeat'|split; [intros; lia|intros; apply zero_flow_at]]].
      destruct (marks ts (repeat false n) (repeat_length _ _) Hts) as [A B]. fold ac in A, B. constructor; auto.
      + constructor. + intros v [].
      + intros v Hv. rewrite B by auto. rewrite nth_repeat'. cbn. intuition discriminate.
      + intros v Hv _ _ P. rewrite nth_repeat' in P. lia.
    - rewrite seq_S, fold_left_app. cbn [fold_left plus]. destruct (IH ltac:(lia)) as (F & D & C & Q & X & S1 & S2).
      set (s := fold_left (init_edge R src) (seq 0 k) s0) in *. clearbody s. unfold init_edge.
      destruct (slot_some R src k ltac:(lia)) as (t & w & r & S). rewrite S.
      set (s' := mk_prs (p_fl s) (upd (p_ex s) src (exc s src + Z.of_N w)%Z) (p_ds s) (p_ac s) (p_ct s) (p_q s)).
      assert (F' : finv R src (supply (Datatypes.S k)) (p_fl s') (p_ex s')).
      { unfold supply, zsum. rewrite seq_S, zs_app. cbn [zs fold_right plus]. rewrite S, Z.add_0_r. apply finv_supply. exact F. }
      assert (Q' : qinv n ts (p_ex s') (p_ac s') (p_q s') src).
      { destruct Q as [Q1 Q2 Q3 Q4 Q5]. constructor; auto. intros v Hv Nv Nh P. apply Q5; auto. cbn [s' p_ex] in P. rewrite nth_upd_neq in P by auto. auto. }
      assert (X' : exc s' src = Z.of_N w) by (cbn [s' p_ex]; rewrite nth_upd_eq by (pose proof (f_elen _ _ _ _ _ F); unfold n in *; lia); lia).
      assert (DS : dist s' src = n) by (cbn [s' p_ds]; rewrite D; apply nth_upd_eq; rewrite repeat_length; auto).
      destruct (push_edge_ok R ts src V Hts _ src k t w r s' F' Q' S) as (PU & _ & OT & _ & EX). rewrite DS in *. cbv zeta in *. fold n.
      destruct (V src k t w r S) as [Ht [Nt _]].
      assert (DT : dist s' t < n) by (cbn [s' p_ds]; rewrite D, nth_upd_neq by auto; rewrite nth_repeat'; lia).
      destruct (EX DT) as [EX1 EX2]. change (flo s' src k) with (flo s src k) in EX1, EX2. rewrite (S2 k ltac:(lia)) in EX1, EX2. rewrite X' in EX1, EX2.
      split; [apply (pu_f _ _ _ _ _ _ _ PU)|]. split; [rewrite (pu_ds _ _ _ _ _ _ _ PU); exact D|]. split; [rewrite (pu_ct _ _ _ _ _ _ _ PU); exact C|].
      split; [apply (pu_q _ _ _ _ _ _ _ PU)|]. split; [lia|]. split.
      + intros e t' w' r' He S'. destruct (Nat.eq_dec e k) as [->|Ne].
        * rewrite S in S'. injection S' as <- <- <-. lia.
        * rewrite OT by auto. apply (S1 e t' w' r'); [lia|auto].
      + intros e He. rewrite OT by lia. apply S2. lia.
Qed.

Lemma init_ok : let s := pr_init R ts src in
  finv R src (supply (rl R src)) (p_fl s) (p_ex s) /\ p_ds s = upd (repeat 0 n) src n /\
  p_ct s = upd (upd (repeat 0%Z (2 * n)) 0 (Z.of_nat n - 1)%Z) n 1%Z /\
  qinv n ts (p_ex s) (p_ac s) (p_q s) n /\
  (forall e t w r, slot R src e = Some (t, w, r) -> flo s src e = Z.of_N w).
Proof.
  assert (Hs : src < n) by auto.
  pose proof (init_prefix (rl R src) (le_n _)) as G. change (pr_init R ts src) with (fold_left (init_edge R src) (seq 0 (rl R src)) init0).
  destruct G as (F & D & C & Q & X & S1 & _). cbv zeta in *.
  split; [auto|]. split; [auto|]. split; [auto|]. split.
  - destruct Q as [Q1 Q2 Q3 Q4 Q5]. constructor; auto. intros v Hv Nv _ P. apply Q5; auto. intro; subst; contradiction.
  - intros e t w r S. apply (S1 e t w r); auto. apply slot_lt in S. tauto.
Qed.

Lemma start_ok : exists s0, global_relabel true R ts src (pr_init R ts src) = Some s0 /\ inv R ts src (supply (rl R src)) s0 n.
Proof.
  assert (Hs : src < n) by auto. destruct init_ok as (F & D & C & Q & S1). cbv zeta in *. set (s := pr_init R ts src) in *. clearbody s.
  assert (DD : forall v, v < n -> dist s v = if v =? src then n else 0).
  { intros v Hv. rewrite D. destruct (Nat.eqb_spec v src) as [->|N]; [apply nth_upd_eq; rewrite repeat_length; auto|]. rewrite nth_upd_neq by auto. apply nth_repeat'. }
  destruct (global_gen R ts src V Hts Hsrc Hnd true s (fun _ => 0)) as (s' & E & E1 & E2 & E3 & E4 & L' & LI' & _).
  - rewrite D, upd_length. apply repeat_length.
  - rewrite C, !upd_length. apply repeat_length.
  - rewrite DD by auto. rewrite Nat.eqb_refl. reflexivity.
  - intros i Hi. fold n in Hi. rewrite C. rewrite !nth_upd_neq by lia. rewrite nth_repeat'. lia.
  - intros v Hv. rewrite DD by auto. destruct (v =? src); unfold n in *; lia.
  - intros. lia. - auto. - auto.
  - intros e t w r S Re. rewrite (S1 e t w r S) in Re. lia.
  - intros x e t w r S Re. destruct (V x e t w r S) as [Ht _]. destruct (slot_lt _ _ _ _ S) as [Hx _]. rewrite !DD by auto. fold n.
    destruct (x =? src), (t =? src); lia.
  - exists s'. split; [auto|]. constructor; rewrite ?E1, ?E2, ?E3, ?E4; auto.
Qed.

(** * Termination *)
Definition room (ds : list nat) : nat := list_sum (map (fun v => 2 * n - nth v ds 0) (seq 0 n)).
Definition pot (ds : list nat) (q : list nat) : nat := list_sum (map (fun v => (S n) ^ nth v ds 0) q).

Lemma list_sum_le {A} (f g : A -> nat) l : (forall x, In x l -> f x <= g x) -> list_sum (map f l) <= list_sum (map g l).
Proof. induction l as [|x l IH]; intro H; cbn; [lia|]. pose proof (H x (or_introl eq_refl)). assert (list_sum (map f l) <= list_sum (map g l)) by (apply IH; intros; apply H; right; auto). unfold list_sum in *. lia. Qed.
Lemma list_sum_lt {A} (f g : A -> nat) l x : (forall x, In x l -> f x <= g x) -> In x l -> f x < g x -> list_sum (map f l) < list_sum (map g l).
Proof.
  induction l as [|y l IH]; intros H Hx L; [destruct Hx|]. pose proof (H y (or_introl eq_refl)). assert (H' : forall x, In x l -> f x <= g x) by (intros; apply H; right; auto).
  cbn. destruct Hx as [->|Hx]; [pose proof (list_sum_le f g l H')|pose proof (IH H' Hx L)]; unfold list_sum in *; lia.
Qed.
Lemma list_sum_const (l : list nat) (f : nat -> nat) c : (forall x, In x l -> f x <= c) -> list_sum (map f l) <= length l * c.
Proof. induction l as [|x l IH]; intro H; cbn; [lia|]. pose proof (H x (or_introl eq_refl)). assert (list_sum (map f l) <= length l * c) by (apply IH; intros; apply H; right; auto). unfold list_sum in *. lia. Qed.

Lemma pot_cons ds x q : pot ds (x :: q) = (S n) ^ nth x ds 0 + pot ds q.
Proof. reflexivity. Qed.
Lemma pot_remove ds v q : In v q -> NoDup q -> pot ds q = (S n) ^ nth v ds 0 + pot ds (remove Nat.eq_dec v q).
Proof.
  induction q as [|x q IH]; intros Hv Nd; [destruct Hv|]. inversion Nd as [|? ? Nx Nd']. subst. rewrite pot_cons. cbn [remove]. destruct (Nat.eq_dec v x) as [->|N].
  - rewrite notin_remove by auto. reflexivity.
  - destruct Hv as [->|Hv]; [congruence|]. rewrite pot_cons, (IH Hv Nd'). lia.
Qed.

Lemma pot_less ds v q new : In v q -> NoDup q -> NoDup (remove Nat.eq_dec v q ++ new) -> (forall x, In x (remove Nat.eq_dec v q ++ new) -> x < n) ->
  (forall x, In x new -> nth x ds 0 < nth v ds 0) -> 1 <= n -> pot ds (remove Nat.eq_dec v q ++ new) < pot ds q.
Proof.
  intros Hv Nd Nd2 Hx Hn N1. rewrite (pot_remove ds v q Hv Nd). unfold pot at 1. rewrite map_app, list_sum_app. fold (pot ds (remove Nat.eq_dec v q)).
  assert (list_sum (map (fun x => S n ^ nth x ds 0) new) < S n ^ nth v ds 0); [|lia].
  assert (L : length new <= n).
  { rewrite <- (seq_length n 0). apply NoDup_incl_length.
    - clear -Nd2. induction (remove Nat.eq_dec v q) as [|x l IH]; [auto|]. inversion Nd2; auto.
    - intros x Hi. apply in_seq. pose proof (Hx x ltac:(apply in_or_app; auto)). lia. }
  destruct (nth v ds 0) as [|d] eqn:Dv.
  - destruct new as [|x new]; [cbn; lia|]. pose proof (Hn x (or_introl eq_refl)). lia.
  - eapply Nat.le_lt_trans; [apply (list_sum_const new _ (S n ^ d))|].
    + intros x Hi. apply Nat.pow_le_mono_r; [lia|]. pose proof (Hn x Hi). lia.
    + rewrite Nat.pow_succ_r'. assert (0 < S n ^ d) by (apply Nat.neq_0_lt_0, Nat.pow_nonzero; lia). nia.
Qed.

Lemma loop_ok K pick gl : (forall k q, q <> [] -> In (pick k q) q) ->
  forall a b k s, inv R ts src K s n -> room (p_ds s) <= a -> pot (p_ds s) (p_q s) <= b ->
  exists fuel s', (forall fuel', fuel <= fuel' -> pr_loop fuel' pick gl k R ts src s = Some s') /\ inv R ts src K s' n /\ p_q s' = [].
Proof.
  intro Hp. assert (Hs : src < n) by auto. induction a as [a IHa] using lt_wf_ind. induction b as [b IHb] using lt_wf_ind. intros k s I Ra Pb.
  destruct (p_q s) as [|x q] eqn:Eq.
  { exists 0, s. split; [|auto]. intros fuel' _. destruct fuel'; cbn [pr_loop]; rewrite Eq; reflexivity. }
  assert (NE : p_q s <> []) by congruence. pose proof (Hp k (p_q s) NE) as Hv. set (v := pick k (p_q s)) in *.
  destruct (q_in _ _ _ _ _ _ (i_q _ _ _ _ _ _ I) v Hv) as [Vn Vt].
  destruct (discharge_ok R ts src V Hts Hsrc K s v I Hv) as (I1 & M1 & PR). cbv zeta in *. set (s1 := discharge R v (take v s)) in *.
  assert (G : exists s2, (if gl k then global_relabel false R ts src s1 else Some s1) = Some s2 /\ inv R ts src K s2 n /\ p_q s2 = p_q s1 /\
     forall u, u < n -> dist s1 u <= dist s2 u).
  { destruct (gl k).
    - destruct (global_ok R ts src V Hts Hsrc Hnd K s1 I1) as (s2 & E & I2 & _ & _ & Q2 & M2). exists s2. auto.
    - exists s1. auto. }
  destruct G as (s2 & E2 & I2 & Q2 & M2).
  assert (STEP : forall fuel' s', pr_loop fuel' pick gl (S k) R ts src s2 = Some s' -> pr_loop (S fuel') pick gl k R ts src s = Some s').
  { intros fuel' s' H. cbn [pr_loop]. rewrite Eq. rewrite <- Eq. fold v. fold s1. rewrite E2. exact H. }
  assert (M : forall u, u < n -> dist s u <= dist s2 u) by (intros u Hu; pose proof (M1 u); pose proof (M2 u Hu); lia).
  assert (REC : exists fuel s', (forall fuel', fuel <= fuel' -> pr_loop fuel' pick gl (S k) R ts src s2 = Some s') /\ inv R ts src K s' n /\ p_q s' = []).
  { destruct (existsb (fun u => dist s u <? dist s2 u) (seq 0 n)) eqn:B.
    - apply existsb_exists in B. destruct B as (u & Hu & B). apply Nat.ltb_lt in B. apply in_seq in Hu.
      assert (RM : room (p_ds s2) < room (p_ds s)).
      { apply list_sum_lt with (x := u); [|apply in_seq; lia|].
        - intros y Hy. apply in_seq in Hy. pose proof (M y ltac:(lia)). lia.
        - pose proof (l_lt _ _ _ _ _ (i_l _ _ _ _ _ _ I2) u ltac:(lia)) as X. fold n in X. lia. }
      apply (IHa (room (p_ds s2)) ltac:(lia) (pot (p_ds s2) (p_q s2))); auto.
    - assert (EQ : forall u, u < n -> dist s2 u = dist s u).
      { intros u Hu. destruct (Nat.eq_dec (dist s2 u) (dist s u)) as [|N]; [auto|]. pose proof (M u Hu).
        assert (existsb (fun u => dist s u <? dist s2 u) (seq 0 n) = true); [|congruence]. apply existsb_exists. exists u. split; [apply in_seq; lia|]. apply Nat.ltb_lt. lia. }
      assert (DE : p_ds s2 = p_ds s).
      { apply nth_ext with (d := 0) (d' := 0); [rewrite (l_len _ _ _ _ _ (i_l _ _ _ _ _ _ I2)), (l_len _ _ _ _ _ (i_l _ _ _ _ _ _ I)); reflexivity|].
        intros i Hi. apply EQ. rewrite (l_len _ _ _ _ _ (i_l _ _ _ _ _ _ I2)) in Hi. exact Hi. }
      destruct PR as [PR|[DS (new & EN & LN)]].
      + exfalso. pose proof (EQ v Vn). pose proof (M2 v Vn). lia.
      + assert (PL : pot (p_ds s2) (p_q s2) < b).
        { eapply Nat.lt_le_trans; [|exact Pb]. rewrite DE, Q2, EN, <- Eq. apply pot_less; auto; try lia.
          - apply (q_nd _ _ _ _ _ _ (i_q _ _ _ _ _ _ I)).
          - rewrite <- EN. apply (q_nd _ _ _ _ _ _ (i_q _ _ _ _ _ _ I1)).
          - intros y Hy. rewrite <- EN in Hy. apply (q_in _ _ _ _ _ _ (i_q _ _ _ _ _ _ I1) y Hy). }
        apply (IHb (pot (p_ds s2) (p_q s2)) PL); auto. rewrite DE. auto. }
  destruct REC as (fuel & s' & H1 & H2 & H3). exists (S fuel), s'. split; [|auto]. intros fuel' Hf. destruct fuel' as [|fuel']; [lia|].
  apply STEP. apply H1. lia.
Qed.
End PR.
