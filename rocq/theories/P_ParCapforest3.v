(* P_ParCapforest3.v - parallel_modified_capforest leaves no vertex out: at the end everything reachable from a start vertex is marked. *)
From Verif Require Import SpecRel SpecCut P_Cut M_ParCapforest P_Hier P_Heap P_BucketPQ P_Capforest P_ParCapforest P_ParCapforest2.

Lemma pq_ok_fun n span q m m' u : pq_ok n span q m -> pq_ok n span q m' -> m u = m' u.
Proof. destruct q; cbn; intros [_ A] [_ B]; rewrite A, B; reflexivity. Qed.

Section Visits.
Variables (G : graph) (c : N).
Let n := length G.
Hypothesis U : undirected G.
Hypothesis H32 : (c + 1 < 2147483648)%N.
Hypothesis C0 : (0 < c)%N.
Let span := N.to_nat (c + 1).

Definition queued (s : cth) (t : nat) : Prop := exists m, pq_ok n span (c_q s) m /\ m t <> None.
Definition handling (p : cpc) (t : nat) : Prop :=
  match p with CCheck v | CWrite v => v = t | CRead2 _ x _ _ => x = t | _ => False end.
Definition marked (vis : list bool) (t : nat) : Prop := nth t vis false = true.
(* t will be marked *)
Definition cov (s : cth) (vis : list bool) (t : nat) : Prop := marked vis t \/ queued s t \/ handling (c_pc s) t.
(* the edge (v, t) is still to be looked at *)
Definition ahead (p : cpc) (v t : nat) : Prop :=
  match p with
  | CEdges x es => x = v /\ In t (map fst es)
  | CRead1 x y _ es => x = v /\ (t = y \/ In t (map fst es))
  | CRead2 x _ _ es => x = v /\ In t (map fst es)
  | _ => False
  end.

Record tv (s : cth) (vis : list bool) : Prop := {
  tv_safe : safe G c s;
  tv_loc : forall t, nth t (c_loc s) false = true -> marked vis t \/ c_pc s = CCheck t \/ c_pc s = CWrite t;
  tv_r : forall t, nth t (c_r s) 0%N <> 0%N -> cov s vis t;
  tv_done : c_pc s = CDone -> forall t, ~ queued s t }.

Lemma queued_q s s' t : c_q s' = c_q s -> queued s t -> queued s' t.
Proof. intros E (m & A & B). exists m. rewrite E. auto. Qed.

Lemma vstep s vis s' evs : tv s vis -> length vis = n -> cstep false G c s (nth (creads (c_pc s)) vis false) = Some (s', evs) ->
  tv s' (cwrites vis evs) /\ length (cwrites vis evs) = n /\ (forall t, marked vis t -> marked (cwrites vis evs) t) /\
  (forall t, cov s vis t -> cov s' (cwrites vis evs) t) /\
  (forall v t, ahead (c_pc s) v t -> cov s' (cwrites vis evs) t \/ ahead (c_pc s') v t) /\
  (forall v t, ~ marked vis v -> marked (cwrites vis evs) v -> In t (map fst (nth v G [])) -> ahead (c_pc s') v t).
Proof.
  intros [SF TL TR TD] LV E. destruct (safe_step G c U H32 false s (nth (creads (c_pc s)) vis false) SF) as (s1 & evs1 & E1 & SF' & _). rewrite E in E1. injection E1 as <- <-.
  pose proof SF as [[m [Q M]] LL LR R PC T1 V1]. fold n in Q, M, LL, LR, PC, T1, V1. fold span in Q.
  destruct s as [q bl r loc p]. unfold cstep in E. cbn [c_pc c_q c_black c_r c_loc] in *.
  destruct p as [|v|v|v es|v t w es|v t k es|]; cbn [creads] in E.
  - (* CPop *)
    destruct (pq_empty n span q m Q) as [q1 [e [m1 [Eq [Q1 [B M1]]]]]]. rewrite Eq in E. destruct e.
    + injection E as <- <-. cbn [cwrites fold_left]. assert (NQ : forall t, ~ queued (mk_cth q1 bl r loc CDone) t).
      { intros t (m' & Qm & Nm). cbn [c_q] in Qm. rewrite (pq_ok_fun n span q1 m' m1 t Qm Q1), M1 in Nm. apply Nm. apply B. auto. }
      assert (CV : forall t, cov (mk_cth q bl r loc CPop) vis t -> cov (mk_cth q1 bl r loc CDone) vis t).
      { intros t [H|[(m' & Qm & Nm)|[]]]; [left; auto|]. exfalso. cbn [c_q] in Qm. rewrite (pq_ok_fun n span q m' m t Qm Q) in Nm. apply Nm. apply B. auto. }
      split; [|split; [auto|split; [auto|split; [exact CV|split; [intros ? ? []|intros; contradiction]]]]].
      constructor; cbn [c_pc c_loc c_r]; auto. intros t Ht. destruct (TL t Ht) as [H|[H|H]]; [auto|discriminate H|discriminate H].
    + destruct (pq_step q1 QDeleteMax) as [[q2 rs]|] eqn:ED; [|discriminate E]. destruct rs; try discriminate E.
      destruct (v <? length G) eqn:Hv; [|discriminate E]. injection E as <- <-. cbn [cwrites fold_left]. apply Nat.ltb_lt in Hv.
      assert (NE : nonempty m1).
      { assert (X : existsb (fun v => match m v with Some _ => true | None => false end) (seq 0 n) = true).
        { destruct (existsb _ _) eqn:X; [auto|]. apply B. intro x. destruct (m x) as [kx|] eqn:Mv; [|auto].
          destruct (M x kx Mv) as [Hx _]. rewrite existsb_false in X. specialize (X x ltac:(apply in_seq; lia)). rewrite Mv in X. discriminate. }
        apply existsb_exists in X. destruct X as [x [_ X]]. destruct (m x) as [kx|] eqn:Mv; [|discriminate]. exists x, kx. rewrite M1. auto. }
      destruct (pq_delmax n span q1 m1 Q1 NE) as [q2' [v' [k [m2 [ED' [Q2 [_ M2]]]]]]]. rewrite ED in ED'. injection ED' as <- <-.
      assert (CV : forall t, cov (mk_cth q bl r loc CPop) vis t -> cov (mk_cth q2 (upd bl v true) r (upd loc v true) (CCheck v)) vis t).
      { intros t [H|[(m' & Qm & Nm)|[]]]; [left; auto|]. cbn [c_q] in Qm. rewrite (pq_ok_fun n span q m' m t Qm Q) in Nm.
        destruct (Nat.eq_dec t v) as [->|Ntv]; [right; right; reflexivity|]. right. left. exists m2. split; [exact Q2|]. rewrite M2. unfold qset.
        destruct (Nat.eqb_spec t v); [contradiction|]. rewrite M1. auto. }
      split; [|split; [auto|split; [auto|split; [exact CV|split; [intros ? ? []|intros; contradiction]]]]].
      constructor; cbn [c_pc c_loc c_r]; auto.
      * intros t Ht. rewrite nth_upd in Ht. destruct (Nat.eqb_spec t v) as [Qt|Ntv]; cbn [andb] in Ht.
        -- rewrite Qt; auto.
        -- destruct (TL t Ht) as [H|[H|H]]; [auto|discriminate H|discriminate H].
      * discriminate.
  - (* CCheck *)
    injection E as <- <-. cbn [cwrites fold_left]. cbn [c_q c_black c_r c_loc].
    assert (CV : forall t, cov (mk_cth q bl r loc (CCheck v)) vis t -> cov (mk_cth q bl r loc (if nth v vis false then CPop else CWrite v)) vis t).
    { intros t [H|[H|H]]; [left; auto|right; left; eapply queued_q; [|exact H]; reflexivity|]. cbn [handling c_pc] in H. subst t.
      destruct (nth v vis false) eqn:X; [left; exact X|right; right; reflexivity]. }
    split; [|split; [auto|split; [auto|split; [exact CV|split; [intros ? ? []|intros; contradiction]]]]].
    constructor; cbn [c_pc c_loc c_r]; auto.
    + intros t Ht. destruct (TL t Ht) as [H|[H|H]]; [auto| |discriminate H]. injection H as ->. destruct (nth t vis false) eqn:X; [left; exact X|auto].
    + destruct (nth v vis false); discriminate.
  - (* CWrite *)
    injection E as <- <-. cbn [cwrites fold_left c_q c_black c_r c_loc].
    assert (MV : forall t, marked (upd vis v true) t <-> t = v \/ marked vis t).
    { intro t. unfold marked. rewrite nth_upd, LV. replace (v <? n) with true by (symmetry; apply Nat.ltb_lt; auto). rewrite andb_true_r. destruct (Nat.eqb_spec t v); [tauto|]. tauto. }
    assert (CV : forall t, cov (mk_cth q bl r loc (CWrite v)) vis t -> cov (mk_cth q bl r loc (CEdges v (nth v G []))) (upd vis v true) t).
    { intros t [H|[H|H]]; [left; apply MV; auto|right; left; eapply queued_q; [|exact H]; reflexivity|]. cbn [handling c_pc] in H. subst t. left. apply MV. auto. }
    split; [|split; [rewrite upd_length; auto|split; [intros t Ht; apply MV; auto|split; [exact CV|split; [intros ? ? []|]]]]].
    + constructor; cbn [c_pc c_loc c_r]; auto; [|discriminate].
      intros t Ht. left. apply MV. destruct (TL t Ht) as [H|[H|H]]; [auto|discriminate H|]. injection H as ->. auto.
    + intros x t N H I. apply MV in H. destruct H as [->|H]; [|contradiction]. cbn [ahead c_pc]. auto.
  - (* CEdges *)
    destruct es as [|[t w] es].
    + injection E as <- <-. cbn [cwrites fold_left c_q c_black c_r c_loc].
      assert (CV : forall t, cov (mk_cth q bl r loc (CEdges v [])) vis t -> cov (mk_cth q bl r loc CPop) vis t).
      { intros t [H|[H|[]]]; [left; auto|right; left; eapply queued_q; [|exact H]; reflexivity]. }
      split; [|split; [auto|split; [auto|split; [exact CV|split; [intros x y [_ []]|intros; contradiction]]]]].
      constructor; cbn [c_pc c_loc c_r]; auto; [|discriminate]. intros t Ht. destruct (TL t Ht) as [H|[H|H]]; [auto|discriminate H|discriminate H].
    + destruct (t <? length G); [|discriminate E]. destruct (negb (nth t loc false) && (nth t r 0 <? c)%N) eqn:D; injection E as <- <-;
        (match goal with |- context [cwrites vis ?e] => assert (WV : cwrites vis e = vis) by (destruct ((c <=? nth t r 0 + w)%N && negb (nth t bl false)); reflexivity); rewrite WV; clear WV end); cbn [c_q c_black c_r c_loc].
      * assert (CV : forall x, cov (mk_cth q bl r loc (CEdges v ((t, w) :: es))) vis x -> cov (mk_cth q bl r loc (CRead1 v t w es)) vis x).
        { intros x [H|[H|[]]]; [left; auto|right; left; eapply queued_q; [|exact H]; reflexivity]. }
        split; [|split; [auto|split; [auto|split; [exact CV|split; [|intros; contradiction]]]]].
        -- constructor; cbn [c_pc c_loc c_r]; auto; [|discriminate]. intros x Hx. destruct (TL x Hx) as [H|[H|H]]; [auto|discriminate H|discriminate H].
        -- intros x y [-> I]. right. cbn [ahead c_pc]. split; [auto|]. destruct I as [<-|I]; auto.
      * assert (CV : forall x, cov (mk_cth q bl r loc (CEdges v ((t, w) :: es))) vis x -> cov (mk_cth q bl r loc (CEdges v es)) vis x).
        { intros x [H|[H|[]]]; [left; auto|right; left; eapply queued_q; [|exact H]; reflexivity]. }
        split; [|split; [auto|split; [auto|split; [exact CV|split; [|intros; contradiction]]]]].
        -- constructor; cbn [c_pc c_loc c_r]; auto; [|discriminate]. intros x Hx. destruct (TL x Hx) as [H|[H|H]]; [auto|discriminate H|discriminate H].
        -- intros x y [-> I]. destruct I as [<-|I]; [|right; split; auto]. left. cbn [fst]. apply CV. apply andb_false_iff in D. destruct D as [D|D].
           ++ apply negb_false_iff in D. destruct (TL t D) as [H|[H|H]]; [left; auto|discriminate H|discriminate H].
           ++ apply N.ltb_ge in D. apply TR. lia.
  - (* CRead1 *)
    destruct (nth t vis false) eqn:VT; injection E as <- <-; cbn [cwrites fold_left c_q c_black c_r c_loc].
    + assert (CV : forall x, cov (mk_cth q bl r loc (CRead1 v t w es)) vis x -> cov (mk_cth q bl r loc (CEdges v es)) vis x).
      { intros x [H|[H|[]]]; [left; auto|right; left; eapply queued_q; [|exact H]; reflexivity]. }
      split; [|split; [auto|split; [auto|split; [exact CV|split; [|intros; contradiction]]]]].
      * constructor; cbn [c_pc c_loc c_r]; auto; [|discriminate]. intros x Hx. destruct (TL x Hx) as [H|[H|H]]; [auto|discriminate H|discriminate H].
      * intros x y [-> [->|I]]; [left; left; exact VT|right; split; auto].
    + set (k := N.min (nth t r 0%N + w) c) in *.
      assert (CV : forall x, cov (mk_cth q bl r loc (CRead1 v t w es)) vis x -> cov (mk_cth q bl (upd r t (rv32 k)) loc (CRead2 v t k es)) vis x).
      { intros x [H|[H|[]]]; [left; auto|right; left; eapply queued_q; [|exact H]; reflexivity]. }
      split; [|split; [auto|split; [auto|split; [exact CV|split; [|intros; contradiction]]]]].
      * constructor; cbn [c_pc c_loc c_r]; auto; [| |discriminate].
        -- intros x Hx. destruct (TL x Hx) as [H|[H|H]]; [auto|discriminate H|discriminate H].
        -- intros x Hx. rewrite nth_upd in Hx. destruct (Nat.eqb_spec x t) as [Qt|Nx]; cbn [andb] in Hx; [rewrite Qt; right; right; reflexivity|]. apply CV. auto.
      * intros x y [-> [->|I]]; [left; right; right; reflexivity|right; split; auto].
  - (* CRead2 *)
    destruct PC as [Ht [Ek PC]]. destruct (negb (nth t vis false) && negb (nth t loc false)) eqn:D.
    + destruct (pushed G c H32 q m t k Q Ht) as [q' [m' [EP [Q' M']]]].
      { rewrite Ek. auto. }
      { intros k0 H. rewrite Ek. apply M. auto. }
      rewrite EP in E. injection E as <- <-. cbn [cwrites fold_left c_q c_black c_r c_loc].
      assert (CV : forall x, cov (mk_cth q bl r loc (CRead2 v t k es)) vis x -> cov (mk_cth q' bl r loc (CEdges v es)) vis x).
      { intros x [H|[(m0 & Qm & Nm)|H]]; [left; auto| |].
        - right. left. exists m'. split; [exact Q'|]. rewrite M'. unfold qset. destruct (x =? t); [discriminate|]. cbn [c_q] in Qm. rewrite (pq_ok_fun n span q m0 m x Qm Q) in Nm. auto.
        - cbn [handling c_pc] in H. subst x. right. left. exists m'. split; [exact Q'|]. rewrite M'. unfold qset. rewrite Nat.eqb_refl. discriminate. }
      split; [|split; [auto|split; [auto|split; [exact CV|split; [|intros; contradiction]]]]].
      * constructor; cbn [c_pc c_loc c_r]; auto; [|discriminate]. intros x Hx. destruct (TL x Hx) as [H|[H|H]]; [auto|discriminate H|discriminate H].
      * intros x y [-> I]. right. split; auto.
    + injection E as <- <-. cbn [cwrites fold_left c_q c_black c_r c_loc].
      assert (VT : marked vis t). { apply andb_false_iff in D. destruct D as [D|D]; apply negb_false_iff in D; [exact D|]. destruct (TL t D) as [H|[H|H]]; [auto|discriminate H|discriminate H]. }
      assert (CV : forall x, cov (mk_cth q bl r loc (CRead2 v t k es)) vis x -> cov (mk_cth q bl r loc (CEdges v es)) vis x).
      { intros x [H|[H|H]]; [left; auto|right; left; eapply queued_q; [|exact H]; reflexivity|]. cbn [handling c_pc] in H. subst x. left. auto. }
      split; [|split; [auto|split; [auto|split; [exact CV|split; [|intros; contradiction]]]]].
      * constructor; cbn [c_pc c_loc c_r]; auto; [|discriminate]. intros x Hx. destruct (TL x Hx) as [H|[H|H]]; [auto|discriminate H|discriminate H].
      * intros x y [-> I]. right. split; auto.
  - (* CDone *)
    injection E as <- <-. cbn [cwrites fold_left]. split; [constructor; auto|]. split; [auto|]. split; [auto|]. split; [auto|]. split; [intros ? ? []|intros; contradiction].
Qed.

Lemma tv_other s vis vis' : (forall t, marked vis t -> marked vis' t) -> tv s vis -> tv s vis'.
Proof.
  intros M [A B C D]. constructor; auto.
  - intros t Ht. destruct (B t Ht) as [H|H]; auto.
  - intros t Ht. destruct (C t Ht) as [H|H]; [left; auto|right; auto].
Qed.

(* everything marked, or on its way *)
Definition pcov (p : M_ParCapforest.par) (t : nat) : Prop := marked (p_vis p) t \/ exists s, In s (p_th p) /\ (queued s t \/ handling (c_pc s) t).
Record pv (starts : list nat) (p : M_ParCapforest.par) : Prop := {
  pv_tv : forall s, In s (p_th p) -> tv s (p_vis p);
  pv_len : length (p_vis p) = n;
  pv_start : forall v, In v starts -> pcov p v;
  pv_edges : forall v t, marked (p_vis p) v -> In t (map fst (nth v G [])) -> pcov p t \/ exists s, In s (p_th p) /\ ahead (c_pc s) v t }.

Lemma upd_same {A} (l : list A) i x : i < length l -> In x (upd l i x).
Proof.
  intro H. assert (E : nth i (upd l i x) x = x) by (rewrite nth_upd, Nat.eqb_refl; replace (i <? length l) with true by (symmetry; apply Nat.ltb_lt; auto); reflexivity).
  rewrite <- E at 1. apply nth_In. rewrite upd_length. auto.
Qed.
Lemma upd_keep {A} (l : list A) i s x y : nth_error l i = Some s -> In y l -> y = s \/ In y (upd l i x).
Proof.
  intros N H. apply In_nth_error in H. destruct H as [j Hj]. destruct (Nat.eq_dec j i) as [->|Nj]; [left; congruence|]. right.
  assert (L : j < length l) by (apply nth_error_Some; congruence). assert (E : nth j (upd l i x) y = y).
  { rewrite nth_upd. destruct (Nat.eqb_spec j i); [contradiction|]. cbn [andb]. rewrite (nth_error_nth _ _ _ Hj). reflexivity. }
  rewrite <- E at 1. apply nth_In. rewrite upd_length. auto.
Qed.

Lemma pv_step starts p i p' : pv starts p -> par_step false G c p i = Some p' -> pv starts p'.
Proof.
  intros [A B C D] E. unfold par_step in E. destruct (nth_error (p_th p) i) as [s|] eqn:N; [|injection E as <-; constructor; auto].
  destruct (cstep false G c s _) as [[s' evs]|] eqn:ES; [|discriminate E]. injection E as <-.
  assert (Is : In s (p_th p)) by (eapply nth_error_In; eauto). destruct (vstep s (p_vis p) s' evs (A s Is) B ES) as (T' & L' & M' & C' & H' & W').
  assert (Li : i < length (p_th p)) by (apply nth_error_Some; congruence).
  assert (PC : forall t, pcov p t -> pcov (mk_par (cwrites (p_vis p) evs) (upd (p_th p) i s') (p_tr p ++ map (pair i) evs)) t).
  { assert (CS : forall t, cov s (p_vis p) t -> pcov (mk_par (cwrites (p_vis p) evs) (upd (p_th p) i s') (p_tr p ++ map (pair i) evs)) t).
    { intros t Ht. destruct (C' t Ht) as [H|H]; [left; auto|]. right. exists s'. split; [apply upd_same; auto|auto]. }
    intros t [H|(x & Hx & H)]; [left; cbn [p_vis]; auto|]. destruct (upd_keep (p_th p) i s s' x N Hx) as [->|K]; [apply CS; right; auto|]. right. exists x. auto. }
  constructor; cbn [p_th p_vis]; auto.
  - intros x Hx. apply upd_In in Hx. destruct Hx as [->|Hx]; [auto|]. apply (tv_other x (p_vis p)); auto.
  - intros v t Hv Ht. destruct (nth v (p_vis p) false) eqn:MV.
    + destruct (D v t MV Ht) as [H|(x & Hx & H)]; [left; auto|]. destruct (upd_keep (p_th p) i s s' x N Hx) as [->|K].
      * destruct (H' v t H) as [X|X].
        -- left. destruct X as [X|X]; [left; auto|]. right. exists s'. split; [apply upd_same; auto|auto].
        -- right. exists s'. split; [apply upd_same; auto|auto].
      * right. exists x. auto.
    + right. exists s'. split; [apply upd_same; auto|]. apply W'; auto. unfold marked. congruence.
Qed.

Lemma pv_steps starts : forall sched p p', pv starts p -> par_steps false G c p sched = Some p' -> pv starts p'.
Proof.
  induction sched as [|i sched IH]; intros p p' P E; cbn [par_steps] in E; [injection E as <-; auto|].
  destruct (par_step false G c p i) as [p1|] eqn:E1; [|discriminate E]. apply (IH p1 p'); auto. apply (pv_step starts p i p1); auto.
Qed.

Lemma init_tv v vis : v < n -> exists s, cth_init G c v = Some s /\ tv s vis /\ queued s v.
Proof.
  intro Hv. destruct (safe_init G c H32 v Hv) as (s & E & S & P & _). exists s. split; [auto|].
  unfold cth_init in E. fold n span in E.
  assert (Q0 : pq_ok n span (PBucket true (bq_init n span)) qempty).
  { split; [apply wfb_init|]. intro u. unfold qempty. symmetry. apply babs_init. }
  destruct (pq_insert n span _ qempty v 0%N Q0 Hv eq_refl) as [q [EI [m [Q M]]]]; [unfold key32; simpl; lia|]. rewrite EI in E. injection E as <-. split.
  - constructor; auto; cbn [c_loc c_r c_pc].
    + intros t Ht. rewrite nth_repeat_any in Ht. discriminate Ht.
    + intros t Ht. rewrite nth_repeat_any in Ht. congruence.
    + discriminate.
  - exists m. split; [exact Q|]. rewrite M. unfold qset. rewrite Nat.eqb_refl. discriminate.
Qed.

Lemma all_tv vis : forall starts, (forall v, In v starts -> v < n) -> exists l, all_init G c starts = Some l /\ (forall s, In s l -> tv s vis) /\
  forall v, In v starts -> exists s, In s l /\ queued s v.
Proof.
  induction starts as [|v vs IH]; intro H; cbn [all_init].
  - exists []. split; [auto|]. split; intros ? [].
  - destruct (init_tv v vis) as (s & -> & T & Q); [apply H; left; auto|]. destruct IH as (l & -> & TL & QL); [intros; apply H; right; auto|].
    exists (s :: l). split; [auto|]. split; [intros x [<-|Hx]; auto|]. intros x [<-|Hx]; [exists s; split; [left; auto|auto]|].
    destruct (QL x Hx) as (y & Hy & Qy). exists y. split; [right; auto|auto].
Qed.

Theorem visits starts sched p : (forall v, In v starts -> v < n) -> par_run false G c starts sched = Some p -> finished p ->
  (forall v, In v starts -> marked (p_vis p) v) /\ forall v t w, marked (p_vis p) v -> In (t, w) (nth v G []) -> marked (p_vis p) t.
Proof.
  intros HS E F. unfold par_run in E. destruct (all_tv (repeat false n) starts HS) as (l & EL & TL & QL). rewrite EL in E. fold n in E.
  assert (P0 : pv starts (mk_par (repeat false n) l [])).
  { constructor; cbn [p_th p_vis]; auto.
    - apply repeat_length.
    - intros v Hv. right. destruct (QL v Hv) as (s & Hs & Q). exists s. auto.
    - intros v t Hv. unfold marked in Hv. rewrite nth_repeat_any in Hv. discriminate Hv. }
  pose proof (pv_steps starts sched _ p P0 E) as [A B C D].
  assert (X : forall t, pcov p t -> marked (p_vis p) t).
  { intros t [H|(s & Hs & [H|H])]; [auto| |].
    - exfalso. apply (tv_done _ _ (A s Hs) (F s Hs) t H).
    - exfalso. rewrite (F s Hs) in H. exact H. }
  split; [auto|]. intros v t w Hv I. apply (in_map fst) in I. destruct (D v t Hv I) as [H|(s & Hs & H)]; [auto|]. exfalso. rewrite (F s Hs) in H. exact H.
Qed.
End Visits.
