(* P_ParCapforest2.v - executions of parallel_modified_capforest: invariants over all schedules,
   absence of out-of-range accesses, termination. *)
From Verif Require Import SpecRel SpecCut P_Cut M_ParCapforest P_Hier P_Heap P_BucketPQ P_Capforest P_ParCapforest.

Lemma upd_In {A} (l : list A) i x y : In y (upd l i x) -> y = x \/ In y l.
Proof.
  intro H. apply In_nth with (d := x) in H. destruct H as [j [Hj E]]. rewrite upd_length in Hj. rewrite nth_upd in E.
  destruct ((j =? i) && (i <? length l)); [auto|]. right. subst. apply nth_In. auto.
Qed.

Section Runs.
Variables (G : graph) (c : N).
Let n := length G.
Let W := wt G.
Hypothesis U : undirected G.
Hypothesis H32 : (c + 1 < 2147483648)%N.

(** no second read of visited[] has returned true *)
Definition agree (tr : list (nat * cev)) : Prop := forall i t, ~ In (i, EVRead2 t true) tr.

Definition good (l : list cth) (tr : list (nat * cev)) : Prop :=
  (forall s, In s l -> tinv G c s) /\ forall i x y, In (i, EVUnion x y) tr -> conn_ge n W c x y.

Lemma read2_event dis s b s' evs v t k es : cstep dis G c s b = Some (s', evs) -> c_pc s = CRead2 v t k es -> In (EVRead2 t b) evs.
Proof.
  intros E P. unfold cstep in E. rewrite P in E. destruct (negb b && negb (nth t (c_loc s) false)).
  - destruct (par_push (c_q s) t k); [|discriminate]. injection E as _ <-. left. auto.
  - injection E as _ <-. left. auto.
Qed.

Lemma thread_good dis l tr i s b s' evs : good l tr -> nth_error l i = Some s -> cstep dis G c s b = Some (s', evs) ->
  agree (tr ++ map (pair i) evs) -> good (upd l i s') (tr ++ map (pair i) evs).
Proof.
  intros [I P] Hs E AG. assert (IS : tinv G c s) by (apply I; eapply nth_error_In; eauto).
  destruct (cstep_ok dis G c U H32 s b IS) as [s1 [evs1 [E1 [I1 C1]]]].
  { intros v t k es PC. destruct b; [|auto]. exfalso. apply (AG i t). apply in_or_app. right.
    apply in_map. eapply read2_event; eauto. }
  rewrite E in E1. injection E1 as <- <-. split.
  - intros x Hx. apply upd_In in Hx. destruct Hx as [->|Hx]; auto.
  - intros j x y H. apply in_app_or in H. destruct H as [H|H]; [eauto|]. apply in_map_iff in H. destruct H as [e [X H]].
    injection X as _ ->. auto.
Qed.

Lemma init_good starts : (forall v, In v starts -> v < n) -> exists l, all_init G c starts = Some l /\ length l = length starts /\
  forall s, In s l -> tinv G c s.
Proof.
  induction starts as [|v vs IH]; intro H; cbn [all_init].
  - exists []. split; [auto|]. split; [auto|]. intros s [].
  - destruct (init_ok G c H32 v) as [s [-> Is]]; [apply H; left; auto|].
    destruct IH as [l [-> [Ll Il]]]; [intros; apply H; right; auto|].
    exists (s :: l). split; [auto|]. split; [simpl; auto|]. intros x [<-|Hx]; auto.
Qed.

Lemma par_trace dis : forall sched p p', par_steps dis G c p sched = Some p' -> exists tl, p_tr p' = p_tr p ++ tl.
Proof.
  induction sched as [|i sched IH]; intros p p' E; cbn [par_steps] in E.
  - injection E as <-. exists []. rewrite app_nil_r. auto.
  - destruct (par_step dis G c p i) as [p1|] eqn:E1; [|discriminate]. destruct (IH _ _ E) as [tl ->].
    unfold par_step in E1. destruct (nth_error (p_th p) i) as [s|]; [|injection E1 as <-; eauto].
    destruct (cstep dis G c s _) as [[s' evs]|]; [|discriminate]. injection E1 as <-. cbn [p_tr].
    eexists. rewrite <- app_assoc. reflexivity.
Qed.

Lemma any_trace dis : forall sched p p', any_steps dis G c p sched = Some p' -> exists tl, p_tr p' = p_tr p ++ tl.
Proof.
  induction sched as [|[i b] sched IH]; intros p p' E; cbn [any_steps] in E.
  - injection E as <-. exists []. rewrite app_nil_r. auto.
  - destruct (any_step dis G c p i b) as [p1|] eqn:E1; [|discriminate]. destruct (IH _ _ E) as [tl ->].
    unfold any_step in E1. destruct (nth_error (p_th p) i) as [s|]; [|injection E1 as <-; eauto].
    destruct (cstep dis G c s _) as [[s' evs]|]; [|discriminate]. injection E1 as <-. cbn [p_tr].
    eexists. rewrite <- app_assoc. reflexivity.
Qed.

Lemma agree_app a b : agree (a ++ b) -> agree a.
Proof. intros H i t X. apply (H i t). apply in_or_app. auto. Qed.

Lemma par_good dis : forall sched p p', par_steps dis G c p sched = Some p' -> agree (p_tr p') ->
  good (p_th p) (p_tr p) -> good (p_th p') (p_tr p').
Proof.
  induction sched as [|i sched IH]; intros p p' E AG I; cbn [par_steps] in E.
  - injection E as <-. auto.
  - destruct (par_step dis G c p i) as [p1|] eqn:E1; [|discriminate]. apply (IH _ _ E AG).
    destruct (par_trace dis _ _ _ E) as [tl T]. rewrite T in AG. apply agree_app in AG.
    unfold par_step in E1. destruct (nth_error (p_th p) i) as [s|] eqn:S; [|injection E1 as <-; auto].
    destruct (cstep dis G c s _) as [[s' evs]|] eqn:C; [|discriminate]. injection E1 as <-. cbn [p_tr p_th] in *.
    eapply thread_good; eauto.
Qed.

Lemma any_good dis : forall sched p p', any_steps dis G c p sched = Some p' -> agree (p_tr p') ->
  good (p_th p) (p_tr p) -> good (p_th p') (p_tr p').
Proof.
  induction sched as [|[i b] sched IH]; intros p p' E AG I; cbn [any_steps] in E.
  - injection E as <-. auto.
  - destruct (any_step dis G c p i b) as [p1|] eqn:E1; [|discriminate]. apply (IH _ _ E AG).
    destruct (any_trace dis _ _ _ E) as [tl T]. rewrite T in AG. apply agree_app in AG.
    unfold any_step in E1. destruct (nth_error (p_th p) i) as [s|] eqn:S; [|injection E1 as <-; auto].
    destruct (cstep dis G c s _) as [[s' evs]|] eqn:C; [|discriminate]. injection E1 as <-. cbn [p_tr p_th] in *.
    eapply thread_good; eauto.
Qed.

Lemma unions_In p x y : In (x, y) (unions_of p) <-> exists i, In (i, EVUnion x y) (p_tr p).
Proof.
  unfold unions_of. rewrite in_flat_map. split.
  - intros [[i e] [H X]]. cbn [snd] in X. destruct e; try contradiction. destruct X as [X|[]]. injection X as -> ->. eauto.
  - intros [i H]. exists (i, EVUnion x y). split; [auto|]. left. auto.
Qed.

Lemma good_conn l p x y : good l (p_tr p) -> conn (unions_of p) x y -> conn_ge n W c x y.
Proof.
  intros [_ P]. apply conn_in_relation.
  - intro. apply conn_ge_refl.
  - intros. apply conn_ge_sym. auto.
  - intros a b d. apply conn_ge_trans.
  - intros a b H. apply unions_In in H. destruct H as [i H]. eauto.
Qed.

(** without the blacklist visited[] is never written *)
Definition nowrite (s : cth) : Prop := match c_pc s with CCheck _ | CWrite _ => False | _ => True end.

Lemma nowrite_step s b s' evs : nowrite s -> cstep true G c s b = Some (s', evs) ->
  nowrite s' /\ forall v, ~ In (EVWrite v) evs.
Proof.
  unfold nowrite, cstep. destruct (c_pc s) as [|v|v|v es|v t w es|v t k es|] eqn:P; intros NW E; try contradiction.
  - destruct (pq_step (c_q s) QEmpty) as [[q1 r1]|]; [|discriminate]. destruct r1 as [| | |e|]; try discriminate. destruct e.
    + injection E as <- <-. cbn [c_pc]. auto.
    + destruct (pq_step q1 QDeleteMax) as [[q2 r2]|]; [|discriminate]. destruct r2; try discriminate.
      destruct (v <? length G); [|discriminate]. injection E as <- <-. cbn [c_pc]. auto.
  - destruct es as [|[t w] es]; [injection E as <- <-; cbn [c_pc]; auto|].
    destruct (t <? length G); [|discriminate].
    destruct (negb (nth t (c_loc s) false) && (nth t (c_r s) 0 <? c)%N); injection E as <- <-; cbn [c_pc]; [|auto].
    split; [auto|]. intros v' H. destruct ((c <=? nth t (c_r s) 0 + w)%N && negb (nth t (c_black s) false)); [|contradiction].
    destruct H as [H|[]]. discriminate.
  - destruct b; injection E as <- <-; cbn [c_pc]; (split; [auto|]; intros v' [H|[]]; discriminate).
  - destruct (negb b && negb (nth t (c_loc s) false)).
    + destruct (par_push (c_q s) t k); [|discriminate]. injection E as <- <-. cbn [c_pc]. split; [auto|]. intros v' [H|[]]. discriminate.
    + injection E as <- <-. cbn [c_pc]. split; [auto|]. intros v' [H|[]]. discriminate.
  - injection E as <- <-. rewrite P. auto.
Qed.

Lemma cwrites_none evs : forall vis, (forall v, ~ In (EVWrite v) evs) -> cwrites vis evs = vis.
Proof.
  induction evs as [|e evs IH]; intros vis H; [reflexivity|]. unfold cwrites in *. cbn [fold_left].
  destruct e; try (apply IH; intros v' X; apply (H v'); right; exact X). exfalso. apply (H v). left. auto.
Qed.

Lemma read2_read dis s b s' evs t b' : cstep dis G c s b = Some (s', evs) -> In (EVRead2 t b') evs -> b' = b /\ creads (c_pc s) = t.
Proof.
  unfold cstep. destruct (c_pc s) as [|v|v|v es|v t' w es|v t' k es|] eqn:P; intros E H.
  - destruct (pq_step (c_q s) QEmpty) as [[q1 r1]|]; [|discriminate]. destruct r1 as [| | |e|]; try discriminate. destruct e.
    + injection E as <- <-. contradiction.
    + destruct (pq_step q1 QDeleteMax) as [[q2 r2]|]; [|discriminate]. destruct r2; try discriminate.
      destruct (v <? length G); [|discriminate]. destruct dis; injection E as <- <-; contradiction.
  - injection E as <- <-. destruct H as [H|[]]. discriminate.
  - injection E as <- <-. destruct H as [H|[]]. discriminate.
  - destruct es as [|[t' w] es]; [injection E as <- <-; contradiction|].
    destruct (t' <? length G); [|discriminate].
    destruct (negb (nth t' (c_loc s) false) && (nth t' (c_r s) 0 <? c)%N); injection E as <- <-; [|contradiction].
    destruct ((c <=? nth t' (c_r s) 0 + w)%N && negb (nth t' (c_black s) false)); [|contradiction].
    destruct H as [H|[]]. discriminate.
  - destruct b; injection E as <- <-; destruct H as [H|[]]; discriminate.
  - destruct (negb b && negb (nth t' (c_loc s) false)).
    + destruct (par_push (c_q s) t' k); [|discriminate]. injection E as <- <-. destruct H as [H|[]]. injection H as <- <-. auto.
    + injection E as <- <-. destruct H as [H|[]]. injection H as <- <-. auto.
  - injection E as <- <-. contradiction.
Qed.

Lemma nolist_agree : forall sched p p', par_steps true G c p sched = Some p' ->
  (forall x, nth x (p_vis p) false = false) -> (forall s, In s (p_th p) -> nowrite s) -> agree (p_tr p) -> agree (p_tr p').
Proof.
  induction sched as [|i sched IH]; intros p p' E V NW AG; cbn [par_steps] in E.
  - injection E as <-. auto.
  - destruct (par_step true G c p i) as [p1|] eqn:E1; [|discriminate].
    unfold par_step in E1. destruct (nth_error (p_th p) i) as [s|] eqn:S; [|injection E1 as <-; eauto].
    rewrite V in E1. destruct (cstep true G c s false) as [[s' evs]|] eqn:C; [|discriminate]. injection E1 as <-.
    destruct (nowrite_step s false s' evs (NW s (nth_error_In _ _ S)) C) as [N1 N2].
    apply (IH _ _ E); cbn [p_vis p_th p_tr].
    + intro x. rewrite cwrites_none; auto.
    + intros x Hx. apply upd_In in Hx. destruct Hx as [->|Hx]; auto.
    + intros j t H. apply in_app_or in H. destruct H as [H|H]; [exact (AG j t H)|]. apply in_map_iff in H. destruct H as [e [X H]].
      injection X as _ ->. destruct (read2_read _ _ _ _ _ _ _ C H) as [X _]. discriminate.
Qed.

(** a single thread reads the same value twice *)
Lemma single_agree dis : forall sched p p', par_steps dis G c p sched = Some p' ->
  length (p_th p) = 1 -> (forall s v t k es, In s (p_th p) -> c_pc s = CRead2 v t k es -> nth t (p_vis p) false = false) ->
  agree (p_tr p) -> agree (p_tr p').
Proof.
  induction sched as [|i sched IH]; intros p p' E L R AG; cbn [par_steps] in E.
  - injection E as <-. auto.
  - destruct (par_step dis G c p i) as [p1|] eqn:E1; [|discriminate].
    unfold par_step in E1. destruct (nth_error (p_th p) i) as [s|] eqn:S; [|injection E1 as <-; eauto].
    assert (i = 0) as -> by (assert (i < length (p_th p)) by (apply nth_error_Some; congruence); lia).
    destruct (p_th p) as [|s0 [|]] eqn:TH; try (simpl in L; lia). simpl in S. injection S as ->.
    set (b := nth (creads (c_pc s)) (p_vis p) false) in *.
    destruct (cstep dis G c s b) as [[s' evs]|] eqn:C; [|discriminate]. injection E1 as <-.
    apply (IH _ _ E); cbn [p_vis p_th p_tr].
    + reflexivity.
    + intros s1 v t k es [<-|[]] P. unfold cstep in C. destruct (c_pc s) as [|v0|v0|v0 es0|v0 t0 w0 es0|v0 t0 k0 es0|] eqn:P0.
      * destruct (pq_step (c_q s) QEmpty) as [[q1 r1]|]; [|discriminate]. destruct r1 as [| | |e|]; try discriminate. destruct e.
        -- injection C as <- <-. discriminate P.
        -- destruct (pq_step q1 QDeleteMax) as [[q2 r2]|]; [|discriminate]. destruct r2; try discriminate.
           destruct (v0 <? length G); [|discriminate]. destruct dis; injection C as <- <-; discriminate P.
      * injection C as <- <-. cbn [c_pc] in P. destruct b; discriminate P.
      * injection C as <- <-. discriminate P.
      * destruct es0 as [|[t0 w0] es0]; [injection C as <- <-; discriminate P|].
        destruct (t0 <? length G); [|discriminate].
        destruct (negb (nth t0 (c_loc s) false) && (nth t0 (c_r s) 0 <? c)%N); injection C as <- <-; discriminate P.
      * destruct b eqn:B; injection C as <- <-; [discriminate P|]. injection P as <- <- <- <-. exact B.
      * destruct (negb b && negb (nth t0 (c_loc s) false)).
        -- destruct (par_push (c_q s) t0 k0); [|discriminate]. injection C as <- <-. discriminate P.
        -- injection C as <- <-. discriminate P.
      * injection C as <- <-. congruence.
    + intros j t H. apply in_app_or in H. destruct H as [H|H]; [exact (AG j t H)|]. apply in_map_iff in H. destruct H as [e [X H]].
      injection X as _ ->. destruct (read2_read _ _ _ _ _ _ _ C H) as [X Y].
      assert (P : exists v k es, c_pc s = CRead2 v t k es).
      { clear - C H. unfold cstep in C. destruct (c_pc s) as [|v0|v0|v0 es0|v0 t0 w0 es0|v0 t0 k0 es0|] eqn:P0.
        - destruct (pq_step (c_q s) QEmpty) as [[q1 r1]|]; [|discriminate]. destruct r1 as [| | |e|]; try discriminate. destruct e.
          + injection C as <- <-. contradiction.
          + destruct (pq_step q1 QDeleteMax) as [[q2 r2]|]; [|discriminate]. destruct r2; try discriminate.
            destruct (v <? length G); [|discriminate]. destruct dis; injection C as <- <-; contradiction.
        - injection C as <- <-. destruct H as [H|[]]. discriminate.
        - injection C as <- <-. destruct H as [H|[]]. discriminate.
        - destruct es0 as [|[t0 w0] es0]; [injection C as <- <-; contradiction|].
          destruct (t0 <? length G); [|discriminate].
          destruct (negb (nth t0 (c_loc s) false) && (nth t0 (c_r s) 0 <? c)%N); injection C as <- <-; [|contradiction].
          destruct ((c <=? nth t0 (c_r s) 0 + w0)%N && negb (nth t0 (c_black s) false)); [|contradiction].
          destruct H as [H|[]]. discriminate.
        - destruct b; injection C as <- <-; destruct H as [H|[]]; discriminate.
        - destruct (negb b && negb (nth t0 (c_loc s) false)).
          + destruct (par_push (c_q s) t0 k0); [|discriminate]. injection C as <- <-. destruct H as [H|[]]. injection H as <-. eauto.
          + injection C as <- <-. destruct H as [H|[]]. injection H as <-. eauto.
        - injection C as <- <-. contradiction. }
      destruct P as [v [k [es P]]]. assert (V : nth t (p_vis p) false = false) by (eapply R; [left; reflexivity|eauto]).
      rewrite <- Y in V. unfold b in X. congruence.
Qed.

(** safety and termination for every schedule *)
Let span := N.to_nat (c + 1).

Definition cost (v : nat) : nat := 4 + 3 * length (nth v G []).
Definition left_over (loc : list bool) : nat := list_sum (map (fun v => if nth v loc false then 0 else cost v) (seq 0 n)).
Definition pc_left (p : cpc) : nat :=
  match p with
  | CDone => 0 | CPop => 1 | CCheck v => 4 + 3 * length (nth v G []) | CWrite v => 3 + 3 * length (nth v G [])
  | CEdges v es => 2 + 3 * length es | CRead1 v t w es => 4 + 3 * length es | CRead2 v t k es => 3 + 3 * length es
  end.
Definition todo (s : cth) : nat := match c_pc s with CDone => 0 | _ => left_over (c_loc s) + pc_left (c_pc s) end.

Record safe (s : cth) : Prop := {
  sf_q : exists m, pq_ok n span (c_q s) m /\ forall t k, m t = Some k -> t < n /\ nth t (c_loc s) false = false /\ (k <= nth t (c_r s) 0)%N;
  sf_ll : length (c_loc s) = n;
  sf_lr : length (c_r s) = n;
  sf_r : forall t, (nth t (c_r s) 0 <= c)%N;
  sf_pc : match c_pc s with
          | CEdges v es | CRead1 v _ _ es => forall t w, In (t, w) es -> t < n
          | CRead2 v t k es => t < n /\ k = nth t (c_r s) 0%N /\ forall t w, In (t, w) es -> t < n
          | _ => True
          end;
  sf_t : match c_pc s with CRead1 _ t _ _ => t < n | _ => True end;
  sf_v : match c_pc s with CCheck v | CWrite v | CEdges v _ | CRead1 v _ _ _ | CRead2 v _ _ _ => v < n | _ => True end }.

Lemma left_pop loc v : length loc = n -> v < n -> nth v loc false = false -> left_over loc = left_over (upd loc v true) + cost v.
Proof.
  intros L Hv Lv. unfold left_over.
  assert (NL : forall x, nth x (upd loc v true) false = if x =? v then true else nth x loc false).
  { intro x. rewrite nth_upd, L. replace (v <? n) with true by (symmetry; apply Nat.ltb_lt; auto). rewrite andb_true_r. reflexivity. }
  assert (G1 : forall l, NoDup l -> (~ In v l -> list_sum (map (fun x => if nth x loc false then 0 else cost x) l) =
              list_sum (map (fun x => if nth x (upd loc v true) false then 0 else cost x) l)) /\
            (In v l -> list_sum (map (fun x => if nth x loc false then 0 else cost x) l) =
              list_sum (map (fun x => if nth x (upd loc v true) false then 0 else cost x) l) + cost v)).
  { induction l as [|x l IH]; intro ND; [split; [auto|intros []]|]. apply NoDup_cons_iff in ND. destruct ND as [Nx ND].
    destruct (IH ND) as [I1 I2]. cbn [map list_sum]. unfold list_sum in *. cbn [fold_right]. split.
    - intro H. rewrite NL. destruct (Nat.eqb_spec x v) as [->|N]; [exfalso; apply H; left; auto|].
      rewrite I1; [auto|]. intro X. apply H. right. auto.
    - intros [->|H].
      + rewrite (I1 Nx), NL, Nat.eqb_refl, Lv. lia.
      + rewrite NL. destruct (Nat.eqb_spec x v) as [->|N]; [contradiction|]. rewrite (I2 H). lia. }
  apply G1; [apply seq_NoDup|]. apply in_seq. lia.
Qed.

Lemma safe_step dis s b : safe s -> exists s' evs, cstep dis G c s b = Some (s', evs) /\ safe s' /\ (c_pc s <> CDone -> todo s' < todo s) /\
  (c_pc s = CDone -> s' = s) /\ (forall x y, In (EVUnion x y) evs -> x < n /\ y < n).
Proof.
  intros [[m [Q M]] LL LR R PC T1 V1]. destruct s as [q bl r loc p]. unfold cstep, todo. cbn [c_pc c_q c_black c_r c_loc] in *.
  destruct p as [|v|v|v es|v t w es|v t k es|].
  - destruct (pq_empty n span q m Q) as [q1 [e [m1 [-> [Q1 [B M1]]]]]]. destruct e.
    + eexists _, _. split; [reflexivity|]. split; [|split; [cbn [c_pc c_loc pc_left]; lia|split; [discriminate|try (intros x y []; fail); try (intros x y [H|[]]; discriminate H)]]].
      constructor; cbn [c_pc c_q c_r c_loc]; auto. exists m1. split; [auto|]. intros t k. rewrite M1. apply M.
    + assert (NE : nonempty m1).
      { assert (X : existsb (fun v => match m v with Some _ => true | None => false end) (seq 0 n) = true).
        { destruct (existsb _ _) eqn:X; [auto|]. apply B. intro v. destruct (m v) as [k|] eqn:Mv; [|auto].
          destruct (M v k Mv) as [Hv _]. rewrite existsb_false in X.
          specialize (X v ltac:(apply in_seq; lia)). rewrite Mv in X. discriminate. }
        apply existsb_exists in X. destruct X as [v [_ X]]. destruct (m v) as [k|] eqn:Mv; [|discriminate].
        exists v, k. rewrite M1. auto. }
      destruct (pq_delmax n span q1 m1 Q1 NE) as [q2 [v [k [m2 [-> [Q2 [[MX _] M2]]]]]]].
      rewrite M1 in MX. destruct (M v k MX) as [Hv [Lv _]].
      replace (v <? length G) with true by (symmetry; apply Nat.ltb_lt; auto).
      assert (NL : forall x, nth x (upd loc v true) false = if x =? v then true else nth x loc false).
      { intro x. rewrite nth_upd, LL. replace (v <? n) with true by (symmetry; apply Nat.ltb_lt; auto). rewrite andb_true_r. reflexivity. }
      assert (MM : forall t k, m2 t = Some k -> t < n /\ nth t (upd loc v true) false = false /\ (k <= nth t r 0)%N).
      { intros t k' H. rewrite M2 in H. unfold qset in H. rewrite NL. destruct (t =? v); [discriminate|]. rewrite M1 in H. apply M. auto. }
      pose proof (left_pop loc v LL Hv Lv) as LP. unfold cost in LP.
      destruct U as [U1 _].
      destruct dis; eexists _, _; (split; [reflexivity|]; split; [|split; [cbn [c_pc c_loc pc_left]; lia|split; [discriminate|try (intros x y []; fail); try (intros x y [H|[]]; discriminate H)]]]);
        (constructor; cbn [c_pc c_q c_r c_loc]; auto; try (exists m2; auto; fail); try (rewrite upd_length; auto; fail)).
      intros t w H. apply (U1 _ _ _ H).
  - eexists _, _. split; [reflexivity|]. split; [|split; [|split; [discriminate|intros x y [H|[]]; discriminate H]]].
    + constructor; cbn [c_pc c_q c_r c_loc]; auto; [exists m; auto|destruct b; auto|destruct b; auto|destruct b; auto].
    + cbn [c_pc c_loc]. destruct b; cbn [pc_left]; lia.
  - eexists _, _. split; [reflexivity|]. split; [|split; [cbn [c_pc c_loc pc_left]; lia|split; [discriminate|try (intros x y []; fail); try (intros x y [H|[]]; discriminate H)]]].
    constructor; cbn [c_pc c_q c_r c_loc]; auto; [exists m; auto|]. destruct U as [U1 _]. intros t w H. apply (U1 _ _ _ H).
  - destruct es as [|[t w] es].
    + eexists _, _. split; [reflexivity|]. split; [|split; [cbn [c_pc c_loc pc_left length]; lia|split; [discriminate|try (intros x y []; fail); try (intros x y [H|[]]; discriminate H)]]].
      constructor; cbn [c_pc c_q c_r c_loc]; auto. exists m; auto.
    + assert (Ht : t < n) by (apply (PC t w); left; auto).
      replace (t <? length G) with true by (symmetry; apply Nat.ltb_lt; auto).
      assert (PC' : forall t w, In (t, w) es -> t < n) by (intros t' w' H; apply (PC t' w'); right; auto).
      destruct (negb (nth t loc false) && (nth t r 0 <? c)%N); eexists _, _; (split; [reflexivity|]; split; [|split; [cbn [c_pc c_loc pc_left length]; lia|split; [discriminate|]]]).
      * constructor; cbn [c_pc c_q c_r c_loc]; auto; exists m; auto.
      * intros x y H. destruct ((c <=? nth t r 0 + w)%N && negb (nth t bl false)); [|contradiction]. destruct H as [H|[]]. injection H as <- <-. auto.
      * constructor; cbn [c_pc c_q c_r c_loc]; auto; exists m; auto.
      * intros x y [].
  - destruct b; eexists _, _; (split; [reflexivity|]; split; [|split; [cbn [c_pc c_loc pc_left length]; lia|split; [discriminate|try (intros x y []; fail); try (intros x y [H|[]]; discriminate H)]]]).
    + constructor; cbn [c_pc c_q c_r c_loc]; auto. exists m; auto.
    + assert (RK : rv32 (N.min (nth t r 0%N + w) c) = N.min (nth t r 0%N + w) c) by (apply N.mod_small; lia).
      rewrite RK.
      assert (NR : forall x, nth x (upd r t (N.min (nth t r 0%N + w) c)) 0%N = if Nat.eqb x t then N.min (nth t r 0%N + w) c else nth x r 0%N).
      { intro x. rewrite nth_upd, LR. replace (t <? n) with true by (symmetry; apply Nat.ltb_lt; auto). rewrite andb_true_r. reflexivity. }
      constructor; cbn [c_pc c_q c_r c_loc]; auto.
      * exists m. split; [auto|]. intros x k H. destruct (M x k H) as [X [Y Z]]. split; [auto|]. split; [auto|]. rewrite NR.
        destruct (Nat.eqb_spec x t) as [->|]; [|auto]. specialize (R t). lia.
      * rewrite upd_length. auto.
      * intro x. rewrite NR. destruct (x =? t); [lia|auto].
      * split; [auto|]. split; [rewrite NR, Nat.eqb_refl; auto|auto].
  - destruct PC as [Ht [Ek PC]]. destruct (negb b && negb (nth t loc false)) eqn:D.
    + apply andb_prop in D. destruct D as [_ D]. apply negb_true_iff in D.
      destruct (pushed G c H32 q m t k Q Ht) as [q' [m' [-> [Q' M']]]].
      { rewrite Ek. auto. }
      { intros k0 H. rewrite Ek. apply M. auto. }
      eexists _, _. split; [reflexivity|]. split; [|split; [cbn [c_pc c_loc pc_left length]; lia|split; [discriminate|try (intros x y []; fail); try (intros x y [H|[]]; discriminate H)]]].
      constructor; cbn [c_pc c_q c_r c_loc]; auto. exists m'. split; [auto|]. intros x k' H. rewrite M' in H. unfold qset in H.
      destruct (Nat.eqb_spec x t) as [->|]; [|auto]. injection H as <-. split; [auto|]. split; [auto|]. lia.
    + eexists _, _. split; [reflexivity|]. split; [|split; [cbn [c_pc c_loc pc_left length]; lia|split; [discriminate|try (intros x y []; fail); try (intros x y [H|[]]; discriminate H)]]].
      constructor; cbn [c_pc c_q c_r c_loc]; auto. exists m; auto.
  - eexists _, _. split; [reflexivity|]. split; [|split; [intro H; exfalso; apply H; reflexivity|split; [auto|intros x y []]]].
    constructor; cbn [c_pc c_q c_r c_loc]; auto. exists m; auto.
Qed.

Lemma safe_init v : v < n -> exists s, cth_init G c v = Some s /\ safe s /\ c_pc s = CPop /\
  todo s = S (list_sum (map cost (seq 0 n))).
Proof.
  intros Hv. unfold cth_init. fold n. fold span.
  assert (Q0 : pq_ok n span (PBucket true (bq_init n span)) qempty).
  { split; [apply wfb_init|]. intro u. unfold qempty. symmetry. apply babs_init. }
  destruct (pq_insert n span _ qempty v 0%N Q0 Hv eq_refl) as [q [E [m [Q M]]]]; [unfold key32; simpl; lia|].
  rewrite E. eexists. split; [reflexivity|]. split; [|split; [reflexivity|]].
  - constructor; cbn [c_pc c_q c_r c_loc]; auto; try apply repeat_length.
    + exists m. split; [auto|]. intros t k H. rewrite M in H. unfold qset, qempty in H. destruct (Nat.eqb_spec t v) as [->|]; [|discriminate].
      injection H as <-. split; [auto|]. rewrite !nth_repeat_any. unfold key32. simpl. split; [auto|lia].
    + intro t. rewrite nth_repeat_any. lia.
  - unfold todo, left_over. cbn [c_pc c_loc pc_left].
    rewrite (map_ext _ cost); [lia|]. intro x. rewrite nth_repeat_any. reflexivity.
Qed.

Lemma safe_all starts : (forall v, In v starts -> v < n) -> exists l, all_init G c starts = Some l /\ length l = length starts /\
  (forall s, In s l -> safe s /\ nowrite s /\ c_pc s = CPop /\ todo s = S (list_sum (map cost (seq 0 n)))).
Proof.
  induction starts as [|v vs IH]; intro H; cbn [all_init].
  - exists []. split; [auto|]. split; [auto|]. intros s [].
  - destruct (safe_init v) as [s [-> [Is [P T]]]]; [apply H; left; auto|].
    destruct IH as [l [-> [Ll Il]]]; [intros; apply H; right; auto|].
    exists (s :: l). split; [auto|]. split; [simpl; auto|]. intros x [<-|Hx]; auto. split; [auto|]. split; [|auto].
    unfold nowrite. rewrite P. exact I.
Qed.

Lemma safe_run dis : forall sched p, (forall s, In s (p_th p) -> safe s) ->
  (forall i x y, In (i, EVUnion x y) (p_tr p) -> x < n /\ y < n) ->
  exists p', par_steps dis G c p sched = Some p' /\ length (p_th p') = length (p_th p) /\ (forall i x y, In (i, EVUnion x y) (p_tr p') -> x < n /\ y < n) /\
    forall i s, nth_error (p_th p) i = Some s -> exists s', nth_error (p_th p') i = Some s' /\
      todo s' <= todo s - count_occ Nat.eq_dec sched i.
Proof.
  induction sched as [|j sched IH]; intros p S TR; cbn [par_steps].
  - exists p. split; [auto|]. split; [auto|]. split; [exact TR|]. intros i s H. exists s. split; [auto|]. simpl. lia.
  - unfold par_step. destruct (nth_error (p_th p) j) as [s|] eqn:N.
    + destruct (safe_step dis s (nth (creads (c_pc s)) (p_vis p) false)) as [s' [evs [-> [S' [T1 [T2 TU]]]]]]; [apply S; eapply nth_error_In; eauto|].
      assert (Lj : j < length (p_th p)) by (apply nth_error_Some; congruence).
      destruct (IH (mk_par (cwrites (p_vis p) evs) (upd (p_th p) j s') (p_tr p ++ map (pair j) evs))) as [p' [E [L [S2 T]]]]; cbn [p_th p_tr] in *.
      { intros x Hx. apply upd_In in Hx. destruct Hx as [->|Hx]; auto. }
      { intros i x y H. apply in_app_or in H. destruct H as [H|H]; [exact (TR i x y H)|]. apply in_map_iff in H. destruct H as [e [X H]].
        injection X as _ ->. auto. }
      exists p'. split; [exact E|]. split; [rewrite L, upd_length; auto|]. split; [exact S2|].
      intros i si Hi. destruct (Nat.eq_dec i j) as [->|Nij].
      * rewrite N in Hi. injection Hi as <-.
        destruct (T j s') as [s2 [E2 D]].
        { rewrite (nth_error_nth' _ s') by (rewrite upd_length; auto). rewrite nth_upd, Nat.eqb_refl.
          replace (j <? length (p_th p)) with true by (symmetry; apply Nat.ltb_lt; auto). reflexivity. }
        exists s2. split; [auto|]. rewrite count_occ_cons_eq by auto.
        assert (X : todo s' <= todo s - 1).
        { destruct (c_pc s) eqn:P; try (assert (todo s' < todo s) by (apply T1; discriminate); lia).
          rewrite (T2 eq_refl). unfold todo. rewrite P. lia. }
        lia.
      * destruct (T i si) as [s2 [E2 D]].
        { rewrite (nth_error_nth' _ si) by (rewrite upd_length; apply nth_error_Some; congruence).
          rewrite nth_upd. destruct (Nat.eqb_spec i j); [contradiction|]. simpl. rewrite <- Hi. symmetry. apply nth_error_nth'. apply nth_error_Some. congruence. }
        exists s2. split; [auto|]. rewrite count_occ_cons_neq by auto. auto.
    + destruct (IH p S TR) as [p' [E [L [S2 T]]]]. exists p'. split; [auto|]. split; [auto|]. split; [exact S2|].
      intros i s Hi. destruct (Nat.eq_dec i j) as [->|Nij]; [congruence|].
      destruct (T i s Hi) as [s2 [E2 D]]. exists s2. split; [auto|]. rewrite count_occ_cons_neq by auto. auto.
Qed.

Lemma todo_zero s : todo s = 0 -> c_pc s = CDone.
Proof. unfold todo. destruct (c_pc s); cbn [pc_left]; intro H; try lia. reflexivity. Qed.

End Runs.

Lemma run_facts dis G c starts sched : undirected G -> (c + 1 < 2147483648)%N -> (forall v, In v starts -> v < length G) ->
  exists p, par_run dis G c starts sched = Some p /\ (forall i x y, In (i, EVUnion x y) (p_tr p) -> x < length G /\ y < length G) /\
    ((forall i, i < length starts ->
        1 + list_sum (map (fun es => 4 + 3 * length es) G) <= count_occ Nat.eq_dec sched i) -> finished p).
Proof.
  intros U H32 HS. unfold par_run.
  destruct (safe_all G c H32 starts HS) as [l [-> [Ll Il]]].
  destruct (safe_run G c U H32 dis sched (mk_par (repeat false (length G)) l [])) as [p [E [L [TR T]]]].
  { intros s Hs. apply Il. auto. }
  { intros i x y []. }
  exists p. split; [exact E|]. split; [exact TR|]. intros C s Hs. apply (todo_zero G c H32). apply In_nth_error in Hs. destruct Hs as [i Hi].
  cbn [p_th] in *. assert (Hl : i < length l) by (rewrite <- L; apply nth_error_Some; congruence).
  destruct (nth_error l i) as [s0|] eqn:N; [|apply nth_error_None in N; lia].
  destruct (T i s0 N) as [s' [E' D]]. rewrite Hi in E'. injection E' as <-.
  destruct (Il s0 (nth_error_In _ _ N)) as [_ [_ [_ T0]]]. specialize (C i ltac:(rewrite <- Ll; exact Hl)).
  assert (X : list_sum (map (cost G) (seq 0 (length G))) = list_sum (map (fun es => 4 + 3 * length es) G)).
  { clear. f_equal. replace (map (cost G) (seq 0 (length G))) with (map (fun es : list (nat * N) => 4 + 3 * length es) (map (fun v => nth v G []) (seq 0 (length G)))).
    - f_equal. apply nth_ext with (d := []) (d' := []); [rewrite map_length, seq_length; auto|].
      intros k Hk. rewrite map_length, seq_length in Hk. apply (nth_map_seq (fun v => nth v G [])). auto.
    - rewrite map_map. reflexivity. }
  lia.
Qed.
