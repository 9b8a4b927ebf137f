(* P_Scc.v - the explicit search computes the strongly connected components. *)
From Coq Require Import Relations Sorted.
From Verif Require Import M_Scc.

Section Scc.
Context (rows : list (list (option nat))).
Let n := length rows.
Context (Hrows : forall u v, In (Some v) (nth u rows []) -> v < n).

Definition sedge (u v : nat) : Prop := In (Some v) (nth u rows []).
Definition sreach := clos_refl_trans nat sedge.

Definition dnum (s : scc) (v : nat) : nat := match nth v (s_num s) None with Some x => x | None => 0 end.
Definition disc (s : scc) (v : nat) : Prop := nth v (s_num s) None <> None.
Definition fin (s : scc) (v : nat) : Prop := nth v (s_comp s) None <> None.

Definition setstk (s : scc) (k : list (nat * nat)) : scc := mk_scc (s_num s) (s_comp s) (s_cnt s) (s_cc s) (s_bs s) (s_unf s) (s_rts s) k.
Definition setrts (s : scc) (r : list nat) : scc := mk_scc (s_num s) (s_comp s) (s_cnt s) (s_cc s) (s_bs s) (s_unf s) r (s_stk s).

Record sinv (s : scc) : Prop := {
  i_ln : length (s_num s) = n; i_lc : length (s_comp s) = n; i_lb : s_cc s <= length (s_bs s);
  i_lt : forall v, disc s v -> dnum s v < s_cnt s;
  i_inj : forall u v, disc s u -> disc s v -> dnum s u = dnum s v -> u = v;
  i_disc : forall v, disc s v <-> fin s v \/ In v (s_unf s);
  i_unf : forall v, In v (s_unf s) -> ~ fin s v;
  i_us : StronglySorted (fun a b => dnum s b < dnum s a) (s_unf s);
  i_rs : StronglySorted (fun a b => dnum s b < dnum s a) (s_rts s);
  i_ss : StronglySorted (fun a b => dnum s b < dnum s a) (map fst (s_stk s));
  i_su : forall v, In v (map fst (s_stk s)) -> In v (s_unf s);
  i_rst : forall v, In v (s_rts s) -> In v (map fst (s_stk s));
  i_A : forall x y, In x (s_unf s) -> In y (s_unf s) -> dnum s x <= dnum s y -> sreach x y;
  i_B : forall x y, In x (s_unf s) -> In y (s_unf s) -> dnum s y <= dnum s x -> (forall r, In r (s_rts s) -> ~ (dnum s y < dnum s r <= dnum s x)) -> sreach x y;
  i_C : forall u i v, In u (s_unf s) -> nth_error (nth u rows []) i = Some (Some v) -> (forall e, In (u, e) (s_stk s) -> i < e) ->
        disc s v /\ (In v (s_unf s) -> forall r, In r (s_rts s) -> ~ (dnum s v < dnum s r <= dnum s u));
  i_E : forall x, In x (s_unf s) -> exists r, In r (s_rts s) /\ dnum s r <= dnum s x;
  i_F : forall u v, fin s u -> sedge u v -> fin s v;
  i_comp : forall u v, fin s u -> fin s v -> (nth u (s_comp s) None = nth v (s_comp s) None <-> sreach u v /\ sreach v u);
  i_cc : forall v c, nth v (s_comp s) None = Some c -> c < s_cc s;
  i_ne : forall c, c < s_cc s -> exists v, nth v (s_comp s) None = Some c;
  i_top : forall u v c d, nth u (s_comp s) None = Some c -> nth v (s_comp s) None = Some d -> sedge u v -> d <= c }.

Lemma sedge_lt u v : sedge u v -> u < n /\ v < n.
Proof. intro H. split; [|eapply Hrows; exact H]. destruct (Nat.lt_ge_cases u n); [auto|]. unfold sedge in H. rewrite nth_overflow in H by auto. destruct H. Qed.
Lemma disc_lt s v : sinv s -> disc s v -> v < n.
Proof. intros I H. destruct (Nat.lt_ge_cases v n); [auto|]. exfalso. apply H. apply nth_overflow. rewrite (i_ln _ I). exact H0. Qed.
Lemma unf_disc s v : sinv s -> In v (s_unf s) -> disc s v.
Proof. intros I H. apply (i_disc _ I). auto. Qed.
Lemma fin_reach s u v : sinv s -> fin s u -> sreach u v -> fin s v.
Proof. intros I F R. induction R; auto. eapply (i_F _ I); eauto. Qed.

Lemma ss_head {A} (R : A -> A -> Prop) a l : StronglySorted R (a :: l) -> forall b, In b l -> R a b.
Proof. intro H. apply StronglySorted_inv in H as [_ H]. rewrite Forall_forall in H. exact H. Qed.
Lemma ss_tail {A} (R : A -> A -> Prop) a l : StronglySorted R (a :: l) -> StronglySorted R l.
Proof. intro H. apply StronglySorted_inv in H as [H _]. exact H. Qed.
Lemma ss_ext {A} (R Q : A -> A -> Prop) l : (forall a b, In a l -> In b l -> R a b -> Q a b) -> StronglySorted R l -> StronglySorted Q l.
Proof.
  induction l as [|a l IH]; intros H S; [constructor|]. apply StronglySorted_inv in S as [S F]. rewrite Forall_forall in F. constructor.
  - apply IH; [|exact S]. intros. apply H; [right|right|]; auto.
  - rewrite Forall_forall. intros b Hb. apply H; [left; auto|right; auto|auto].
Qed.

(* every unfinished vertex reaches the vertex on top of the stack *)
Lemma reach_top s c e st x : sinv s -> s_stk s = (c, e) :: st -> In x (s_unf s) -> sreach x c.
Proof.
  intros I E Hx. assert (Hc : In c (s_unf s)) by (apply (i_su _ I); rewrite E; left; reflexivity).
  destruct (Nat.le_gt_cases (dnum s x) (dnum s c)) as [L|G]; [apply (i_A _ I); auto|]. apply (i_B _ I); auto; [lia|].
  intros r Hr [B _]. apply (i_rst _ I) in Hr. pose proof (i_ss _ I) as S. rewrite E in Hr, S. cbn [map fst] in Hr, S. destruct Hr as [<-|Hr]; [lia|]. pose proof (ss_head _ _ _ S r Hr). cbn in H. lia.
Qed.

Lemma advance s c e st : sinv s -> s_stk s = (c, e) :: st ->
  (forall v, nth_error (nth c rows []) e = Some (Some v) -> disc s v /\ (In v (s_unf s) -> forall r, In r (s_rts s) -> ~ (dnum s v < dnum s r <= dnum s c))) ->
  sinv (setstk s ((c, S e) :: st)).
Proof.
  intros I E H. destruct I. rewrite E in *. constructor; try assumption. cbn [setstk s_unf s_stk s_rts].
  intros u i v Hu Hi Hs. destruct (Nat.eq_dec u c) as [->|NE].
  - destruct (Nat.eq_dec i e) as [->|NE2]; [apply H; exact Hi|]. pose proof (Hs (S e) (or_introl eq_refl)) as Q. apply (i_C0 c i v Hu Hi). intros e' [E'|E']; [injection E' as <-; lia|apply Hs; right; exact E'].
  - apply (i_C0 u i v Hu Hi). intros e' [E'|E']; [injection E' as <- _; congruence|apply Hs; right; exact E'].
Qed.

Lemma merge_ok s x : sinv s -> forall rts, (forall r, In r rts -> disc s r) -> StronglySorted (fun a b => dnum s b < dnum s a) rts ->
  (exists r, In r rts /\ dnum s r <= x) -> exists rs, scc_merge (s_num s) x rts = Some rs /\ (forall r, In r rs <-> In r rts /\ dnum s r <= x) /\ StronglySorted (fun a b => dnum s b < dnum s a) rs.
Proof.
  intros I. induction rts as [|a l IH]; intros D S (r & Hr & L); [destruct Hr|]. cbn [scc_merge]. pose proof (D a (or_introl eq_refl)) as Da. pose proof (disc_lt s a I Da) as La.
  rewrite (nth_error_nth' _ None) by (rewrite (i_ln _ I); exact La). unfold disc in Da. assert (EA : dnum s a = match nth a (s_num s) None with Some x => x | None => 0 end) by reflexivity. destruct (nth a (s_num s) None) as [y|]; [|congruence].
  destruct (Nat.ltb_spec x y) as [LT|GE].
  - destruct IH as (rs & -> & H1 & H2); [intros; apply D; right; auto|eapply ss_tail; eauto|destruct Hr as [<-|Hr]; [lia|eauto]|]. exists rs. split; [reflexivity|]. split; [|exact H2].
    intro q. rewrite H1. cbn [In]. intuition. subst. lia.
  - exists (a :: l). split; [reflexivity|]. split; [|exact S]. intro q. split; [|tauto]. intros [<-|Hq]; [split; [left; auto|lia]|]. split; [right; auto|]. pose proof (ss_head _ _ _ S q Hq) as Q. cbn in Q. lia.
Qed.

Lemma merge_inv s c e st t rs : sinv s -> s_stk s = (c, e) :: st -> sedge c t -> In t (s_unf s) ->
  (forall r, In r rs <-> In r (s_rts s) /\ dnum s r <= dnum s t) -> StronglySorted (fun a b => dnum s b < dnum s a) rs -> sinv (setrts s rs).
Proof.
  intros I E ED Ht HR SR. pose proof (fun x Hx => reach_top s c e st x I E Hx) as RT. destruct I. constructor; try assumption.
  - cbn [setrts s_rts s_stk]. intros v Hv. apply HR in Hv as [Hv _]. auto.
  - cbn [setrts s_rts s_unf]. change (dnum (setrts s rs)) with (dnum s). intros x y Hx Hy L NR.
    destruct (existsb (fun r => (dnum s y <? dnum s r) && (dnum s r <=? dnum s x)) (s_rts s)) eqn:EX.
    + apply existsb_exists in EX as (r & Hr & EX). apply andb_true_iff in EX as [E1 E2]. apply Nat.ltb_lt in E1. apply Nat.leb_le in E2.
      assert (TR : dnum s t < dnum s r). { destruct (Nat.lt_ge_cases (dnum s t) (dnum s r)); [auto|]. exfalso. apply (NR r); [apply HR; auto|lia]. }
      apply rt_trans with c; [apply RT; exact Hx|]. apply rt_trans with t; [apply rt_step; exact ED|].
      destruct (Nat.le_gt_cases (dnum s t) (dnum s y)) as [L2|G2]; [apply i_A0; auto|]. apply i_B0; auto; [lia|]. intros q Hq [Q1 Q2]. apply (NR q); [apply HR; auto|lia].
    + apply i_B0; auto. intros r Hr [Q1 Q2]. assert (Z : existsb (fun r => (dnum s y <? dnum s r) && (dnum s r <=? dnum s x)) (s_rts s) = true); [|congruence].
      apply existsb_exists. exists r. split; [auto|]. apply andb_true_iff. split; [apply Nat.ltb_lt|apply Nat.leb_le]; auto.
  - cbn [setrts s_rts s_unf s_stk]. intros u i v Hu Hi Hs. destruct (i_C0 u i v Hu Hi Hs) as [A B]. split; [exact A|]. intros Hv r Hr. apply HR in Hr as [Hr _]. apply (B Hv r Hr).
  - cbn [setrts s_rts s_unf]. change (dnum (setrts s rs)) with (dnum s). intros x Hx. destruct (Nat.le_gt_cases (dnum s x) (dnum s t)) as [L|G].
    + destruct (i_E0 x Hx) as (r & Hr & Lr). exists r. split; [apply HR; split; [auto|lia]|auto].
    + destruct (i_E0 t Ht) as (r & Hr & Lr). exists r. split; [apply HR; auto|lia].
Qed.

Lemma dnum_disc_old s t k v : v <> t -> dnum (scc_discover s t k) v = dnum s v.
Proof. intro H. unfold dnum, scc_discover. cbn [s_num]. rewrite nth_upd_neq by auto. reflexivity. Qed.
Lemma dnum_disc_new s t k : t < length (s_num s) -> dnum (scc_discover s t k) t = s_cnt s.
Proof. intro H. unfold dnum, scc_discover. cbn [s_num]. rewrite nth_upd_eq by auto. reflexivity. Qed.

Lemma discover_inv s t k : sinv s -> ~ disc s t -> t < n ->
  (s_stk s = k \/ exists c e, s_stk s = k /\ True /\ k = (c, e) :: tl k /\ sedge c t) ->
  (s_unf s = [] \/ exists c e, k = (c, e) :: tl k /\ sedge c t) ->
  sinv (scc_discover s t ((t, 0) :: k)).
Proof.
  intros I ND Lt SK HE. assert (SK' : s_stk s = k) by (destruct SK as [|(? & ? & ? & _)]; auto). clear SK.
  set (s' := scc_discover s t ((t, 0) :: k)).
  assert (NT : forall v, disc s v -> v <> t) by (intros v H ->; auto).
  assert (NU : forall v, In v (s_unf s) -> v <> t) by (intros v H; apply NT, (unf_disc _ _ I H)).
  assert (DO : forall v, disc s v -> dnum s' v = dnum s v) by (intros v H; apply dnum_disc_old, NT, H).
  assert (DN : dnum s' t = s_cnt s) by (apply dnum_disc_new; rewrite (i_ln _ I); exact Lt).
  assert (DD : forall v, disc s' v <-> disc s v \/ v = t).
  { intro v. unfold disc, s', scc_discover. cbn [s_num]. destruct (Nat.eq_dec v t) as [->|NE]; [rewrite nth_upd_eq by (rewrite (i_ln _ I); exact Lt); split; [auto|discriminate]|rewrite nth_upd_neq by auto; intuition]. }
  assert (RU : forall r, In r (s_rts s) -> In r (s_unf s)) by (intros r H; apply (i_su _ I), (i_rst _ I), H).
  assert (SU : forall r, In r (map fst k) -> In r (s_unf s)) by (intros r H; apply (i_su _ I); rewrite SK'; exact H).
  assert (SSs : forall l, (forall v, In v l -> In v (s_unf s)) -> StronglySorted (fun a b => dnum s b < dnum s a) l -> StronglySorted (fun a b => dnum s' b < dnum s' a) (t :: l)).
  { intros l Hl S. constructor.
    - revert S. apply ss_ext. intros a b Ha Hb. rewrite !DO by (apply (unf_disc _ _ I); auto). auto.
    - rewrite Forall_forall. intros b Hb. rewrite DN, DO by (apply (unf_disc _ _ I); auto). apply (i_lt _ I), (unf_disc _ _ I); auto. }
  assert (XT : forall x, In x (s_unf s) -> sreach x t).
  { intros x Hx. destruct HE as [E|(c & e & EK & ED)]; [rewrite E in Hx; destruct Hx|]. apply rt_trans with c; [|apply rt_step; exact ED]. apply (reach_top s c e (tl k) x I); [rewrite SK'; exact EK|exact Hx]. }
  pose proof I as I0. destruct I0. constructor; cbn [s' scc_discover s_num s_comp s_cnt s_cc s_bs s_unf s_rts s_stk map fst].
  - rewrite upd_length. assumption.
  - assumption.
  - assumption.
  - intros v Hv. fold s'. apply DD in Hv as [Hv| ->]; [rewrite (DO v Hv); specialize (i_lt0 v Hv); lia|rewrite DN; lia].
  - fold s'. intros u v Hu Hv. apply DD in Hu as [Hu| ->]; apply DD in Hv as [Hv| ->]; rewrite ?DN, ?(DO u), ?(DO v) by auto; intro Q; auto; exfalso; [specialize (i_lt0 u Hu)|specialize (i_lt0 v Hv)]; lia.
  - fold s'. intro v. rewrite DD. change (fin s' v) with (fin s v). rewrite i_disc0. cbn [In]. intuition.
  - change (fin (scc_discover s t ((t, 0) :: k))) with (fin s). intros v [<-|Hv]; [|exact (i_unf0 v Hv)]. intro F. apply ND, i_disc0. left. exact F.
  - fold s'. apply SSs; auto.
  - fold s'. apply SSs; auto.
  - fold s'. apply SSs; auto. rewrite <- SK'. assumption.
  - intros v [<-|Hv]; [left; auto|right; auto].
  - intros v [<-|Hv]; [left; auto|right]. rewrite <- SK'. auto.
  - fold s'. intros x y [<-|Hx] [<-|Hy] L.
    + apply rt_refl.
    + exfalso. rewrite DN, DO in L by (apply (unf_disc _ _ I); auto). pose proof (i_lt0 y (unf_disc _ _ I Hy)). lia.
    + apply XT, Hx.
    + rewrite !DO in L by (apply (unf_disc _ _ I); auto). auto.
  - fold s'. intros x y [<-|Hx] [<-|Hy] L NR.
    + apply rt_refl.
    + exfalso. apply (NR t); [left; auto|]. rewrite DN, DO by (apply (unf_disc _ _ I); auto). pose proof (i_lt0 y (unf_disc _ _ I Hy)). lia.
    + apply XT, Hx.
    + rewrite !DO in L by (apply (unf_disc _ _ I); auto). apply i_B0; auto. intros r Hr Q. apply (NR r); [right; auto|]. rewrite !DO by (apply (unf_disc _ _ I); auto). exact Q.
  - fold s'. intros u i v [<-|Hu] Hi Hs; [specialize (Hs 0 (or_introl eq_refl)); lia|]. destruct (i_C0 u i v Hu Hi) as [A B]; [rewrite SK'; intros e He; apply Hs; right; exact He|]. split; [apply DD; auto|].
    intros [<-|Hv] r Hr Q; [contradiction|]. destruct Hr as [<-|Hr].
    + rewrite DN, (DO u) in Q by (apply (unf_disc _ _ I); auto). pose proof (i_lt0 u (unf_disc _ _ I Hu)). lia.
    + rewrite !DO in Q by (auto; apply (unf_disc _ _ I); auto). exact (B Hv r Hr Q).
  - fold s'. intros x [<-|Hx]; [exists t; split; [left; auto|auto]|]. destruct (i_E0 x Hx) as (r & Hr & L). exists r. split; [right; auto|]. rewrite !DO by (apply (unf_disc _ _ I); auto). exact L.
  - assumption.
  - assumption.
  - assumption.
  - assumption.
  - assumption.
Qed.

(* the for loop *)
Definition undisc (s : scc) : nat := length (filter (fun o : option nat => match o with None => true | Some _ => false end) (s_num s)).

Lemma undisc_upd l t x : t < length l -> nth t l None = None -> S (length (filter (fun o : option nat => match o with None => true | Some _ => false end) (upd l t (Some x)))) = length (filter (fun o : option nat => match o with None => true | Some _ => false end) l).
Proof. revert t. induction l as [|a l IH]; intros [|t] L N0; cbn in *; try lia; [subst a; reflexivity|]. destruct a; cbn [length]; rewrite <- (IH t) by (auto; lia); reflexivity. Qed.

Lemma skipn_nth_error {A} (l : list A) e : skipn e l = match nth_error l e with Some a => a :: skipn (S e) l | None => [] end.
Proof. revert e. induction l as [|a l IH]; intros [|e]; cbn; auto. rewrite IH. destruct (nth_error l e); reflexivity. Qed.

Lemma scan_ok c st : forall k e s, length (nth c rows []) - e <= k -> sinv s -> s_stk s = (c, e) :: st ->
  (exists s', scc_scan c e (skipn e (nth c rows [])) (setstk s st) = Some s' /\ s_stk s' = st /\ sinv (setstk s' ((c, length (nth c rows [])) :: st)) /\ undisc s' = undisc s /\ s_cc s' = s_cc s /\ s_bs s' = s_bs s /\ s_comp s' = s_comp s) \/
  (exists s' t e', scc_scan c e (skipn e (nth c rows [])) (setstk s st) = Some s' /\ s_stk s' = (t, 0) :: (c, e') :: st /\ hd_error (s_rts s') = Some t /\ t <> c /\ sinv s' /\ S (undisc s') = undisc s /\ s_cc s' = s_cc s /\ s_bs s' = s_bs s /\ s_comp s' = s_comp s).
Proof.
  induction k as [|k IH]; intros e s Lk I ES.
  - left. rewrite skipn_all2 by lia. cbn [scc_scan]. exists (setstk s st). split; [reflexivity|]. split; [reflexivity|]. split; [|auto].
    destruct I. rewrite ES in *. constructor; try assumption. cbn [setstk s_unf s_stk s_rts]. intros u i v Hu Hi Hs. apply (i_C0 u i v Hu Hi). intros e' [E'|E']; [|apply Hs; right; exact E'].
    injection E' as -> <-. pose proof (Hs _ (or_introl eq_refl)). lia.
  - rewrite skipn_nth_error. destruct (nth_error (nth c rows []) e) as [o|] eqn:EE.
    2:{ left. apply nth_error_None in EE. destruct (IH e s ltac:(lia) I ES) as [H|(s' & t & e' & H & _ & _ & _)]; [rewrite skipn_all2 in H by lia; exact H|].
        destruct (IH e s ltac:(lia) I ES) as [Q|(s'' & t' & e'' & Q & ? & ? & ? & ? & ? & _)]; [rewrite skipn_all2 in Q by lia; exact Q|]. rewrite skipn_all2 in Q by lia. cbn [scc_scan] in Q. injection Q as <-. unfold undisc, setstk in *. cbn [s_num] in *. lia. }
    assert (Le : e < length (nth c rows [])) by (apply nth_error_Some; congruence).
    assert (Hc : In c (s_unf s)) by (apply (i_su _ I); rewrite ES; left; reflexivity).
    destruct o as [t|]; cbn [scc_scan].
    + assert (ED : sedge c t) by (eapply nth_error_In; exact EE). assert (Lt : t < n) by (apply (sedge_lt _ _ ED)).
      cbn [setstk s_num s_comp s_rts]. rewrite (nth_error_nth' _ None) by (rewrite (i_ln _ I); exact Lt). destruct (nth t (s_num s) None) as [x|] eqn:EN.
      * assert (DT : disc s t) by (unfold disc; congruence). assert (XD : dnum s t = x) by (unfold dnum; rewrite EN; reflexivity).
        rewrite (nth_error_nth' _ None) by (rewrite (i_lc _ I); exact Lt). destruct (nth t (s_comp s) None) as [q|] eqn:EC.
        -- assert (I' : sinv (setstk s ((c, S e) :: st))).
           { apply (advance s c e st I ES). intros v Hv. rewrite EE in Hv. injection Hv as <-. split; [exact DT|]. intros HU. exfalso. apply (i_unf _ I t HU). unfold fin. congruence. }
           destruct (IH (S e) _ ltac:(lia) I' eq_refl) as [H|H]; [left|right]; exact H.
        -- assert (TU : In t (s_unf s)) by (apply (i_disc _ I) in DT as [F|F]; [unfold fin in F; congruence|exact F]).
           destruct (merge_ok s x I (s_rts s)) as (rs & -> & HR & SR); [intros r Hr; apply (unf_disc _ _ I), (i_su _ I), (i_rst _ I), Hr|apply (i_rs _ I)|rewrite <- XD; apply (i_E _ I); exact TU|].
           rewrite <- XD in HR. pose proof (merge_inv s c e st t rs I ES ED TU HR SR) as I1.
           assert (I' : sinv (setstk (setrts s rs) ((c, S e) :: st))).
           { apply (advance (setrts s rs) c e st I1 ES). intros v Hv. rewrite EE in Hv. injection Hv as <-. split; [exact DT|]. intros _ r Hr. apply HR in Hr as [_ Hr]. change (dnum (setrts s rs)) with (dnum s). lia. }
           destruct (IH (S e) _ ltac:(lia) I' eq_refl) as [H|H]; [left|right]; exact H.
      * right. assert (ND : ~ disc s t) by (unfold disc; intro H; apply H; exact EN). exists (scc_discover (setstk s st) t ((t, 0) :: (c, e) :: st)), t, e.
        split; [destruct (nth_error (s_comp s) t); reflexivity|]. split; [reflexivity|]. split; [reflexivity|]. split; [intros ->; apply ND, (unf_disc _ _ I Hc)|]. split; [|split; [|auto]].
        -- change (scc_discover (setstk s st) t ((t, 0) :: (c, e) :: st)) with (scc_discover s t ((t, 0) :: (c, e) :: st)). apply discover_inv; auto. right. exists c, e. split; [reflexivity|exact ED].
        -- unfold undisc, scc_discover, setstk. cbn [s_num]. apply undisc_upd; [rewrite (i_ln _ I); exact Lt|exact EN].
    + assert (I' : sinv (setstk s ((c, S e) :: st))) by (apply (advance s c e st I ES); intros v Hv; rewrite EE in Hv; discriminate Hv).
      destruct (IH (S e) _ ltac:(lia) I' eq_refl) as [H|H]; [left|right]; exact H.
Qed.

(* popping one component *)
Lemma pop_ok s cc c : cc < length (s_bs s) -> forall unf comp bs, StronglySorted (fun a b => dnum s b < dnum s a) unf -> (forall v, In v unf -> v < length comp) -> cc < length bs -> In c unf ->
  exists unf' comp' bs', scc_pop c cc unf comp bs = Some (unf', comp', bs') /\ (forall v, In v unf' <-> In v unf /\ dnum s v < dnum s c) /\ StronglySorted (fun a b => dnum s b < dnum s a) unf' /\
    length comp' = length comp /\ length bs' = length bs /\ (forall v, In v unf -> dnum s c <= dnum s v -> nth v comp' None = Some cc) /\ (forall v, ~ (In v unf /\ dnum s c <= dnum s v) -> nth v comp' None = nth v comp None).
Proof.
  intros _. induction unf as [|w l IH]; intros comp bs S L Lb Hc; [destruct Hc|]. cbn [scc_pop]. rewrite (proj2 (Nat.ltb_lt _ _) (L w (or_introl eq_refl))), (proj2 (Nat.ltb_lt _ _) Lb). cbn [andb].
  destruct (Nat.eqb_spec w c) as [->|NE].
  - do 3 eexists. split; [reflexivity|]. rewrite !upd_length. split; [|split; [eapply ss_tail; eauto|split; [reflexivity|split; [reflexivity|split]]]].
    + intro v. split; [intro H; split; [right; auto|apply (ss_head _ _ _ S v H)]|]. intros [[<-|H] Q]; [lia|auto].
    + intros v [<-|H] Q; [apply nth_upd_eq, L; left; auto|]. pose proof (ss_head _ _ _ S v H) as Z. cbn in Z. lia.
    + intros v H. apply nth_upd_neq. intros ->. apply H. split; [left; auto|lia].
  - destruct Hc as [E|Hc]; [congruence|]. destruct (IH (upd comp w (Some cc)) (upd bs cc (nth cc bs 0 + 1))) as (unf' & comp' & bs' & -> & H1 & H2 & H3 & H4 & H5 & H6).
    + eapply ss_tail; eauto.
    + intros v Hv. rewrite upd_length. apply L. right. auto.
    + rewrite upd_length. exact Lb.
    + exact Hc.
    + pose proof (ss_head _ _ _ S c Hc) as Z. cbn in Z. do 3 eexists. split; [reflexivity|]. rewrite !upd_length in *. split; [|split; [exact H2|split; [exact H3|split; [exact H4|split]]]].
      * intro v. rewrite H1. cbn [In]. intuition. subst v. lia.
      * intros v [<-|Hv] Q; [|auto]. destruct (in_dec Nat.eq_dec w l) as [i|ni]; [apply H5; auto|]. rewrite H6 by tauto. apply nth_upd_eq, L. left. auto.
      * intros v H. assert (v <> w) by (intros ->; apply H; split; [left; auto|lia]). rewrite H6; [apply nth_upd_neq; auto|]. intros [X Y]. apply H. split; [right; auto|auto].
Qed.

Lemma close_ok s c st : sinv (setstk s ((c, length (nth c rows [])) :: st)) -> s_stk s = st ->
  exists s', scc_close c s = Some s' /\ sinv s' /\ s_stk s' = st /\ undisc s' = undisc s.
Proof.
  intros I ES. assert (Hc : In c (s_unf s)) by (apply (i_su _ I); left; reflexivity). unfold scc_close. destruct (s_rts s) as [|r rs] eqn:ER.
  - exfalso. destruct (i_E _ I c Hc) as (r & Hr & _). cbn [setstk s_rts] in Hr. rewrite ER in Hr. destruct Hr.
  - assert (TOP : forall q, In q (s_rts s) -> dnum s q <= dnum s r).
    { intros q Hq. rewrite ER in Hq. destruct Hq as [<-|Hq]; [auto|]. pose proof (i_rs _ I) as S. cbn [setstk s_rts] in S. rewrite ER in S. pose proof (ss_head _ _ _ S q Hq) as Z. cbn in Z. change (dnum (setstk s ((c, length (nth c rows [])) :: st))) with (dnum s) in Z. lia. }
    assert (PATH : forall q, In q (map fst st) -> dnum s q < dnum s c). { intros q Hq. pose proof (i_ss _ I) as S. cbn [setstk s_stk map fst] in S. apply (ss_head _ _ _ S q Hq). }
    destruct (Nat.eqb_spec c r) as [<-|NE].
    + pose proof (i_lb _ I) as LB. cbn [setstk s_cc s_bs] in LB.
      destruct (pop_ok (mk_scc (s_num s) (s_comp s) (s_cnt s) (s_cc s) (s_bs s ++ [0]) (s_unf s) (s_rts s) (s_stk s)) (s_cc s) c) with (unf := s_unf s) (comp := s_comp s) (bs := s_bs s ++ [0]) as (unf' & comp' & bs' & -> & HU & SU & LC & LBS & C1 & C2).
      { cbn [s_bs]. rewrite app_length. cbn. lia. }
      { exact (i_us _ I). }
      { intros v Hv. pose proof (i_lc _ I) as Q. cbn [setstk s_comp] in Q. rewrite Q. apply (disc_lt _ v I), (unf_disc _ _ I Hv). }
      { rewrite app_length. cbn. lia. }
      { exact Hc. }
      change (dnum (mk_scc (s_num s) (s_comp s) (s_cnt s) (s_cc s) (s_bs s ++ [0]) (s_unf s) (s_rts s) (s_stk s))) with (dnum s) in *.
      eexists. split; [reflexivity|]. split; [|split; [exact ES|reflexivity]].
      set (s' := mk_scc (s_num s) comp' (s_cnt s) (S (s_cc s)) bs' unf' rs (s_stk s)).
      assert (ROOTS : forall q, In q rs -> In q (s_rts s)) by (intros q Hq; rewrite ER; right; exact Hq).
      assert (FN : forall v, fin s' v <-> fin s v \/ (In v (s_unf s) /\ dnum s c <= dnum s v)).
      { intro v. unfold fin, s'. cbn [s_comp]. split.
        - intro F. destruct (in_dec Nat.eq_dec v (s_unf s)) as [i|ni]; [destruct (Nat.le_gt_cases (dnum s c) (dnum s v)); [auto|]|]; left; rewrite C2 in F; auto; intros [? ?]; [lia|contradiction].
        - intros [F|[F1 F2]]; [|rewrite C1 by auto; discriminate]. destruct (in_dec Nat.eq_dec v (s_unf s)) as [i|ni]; [destruct (i_unf _ I v i F)|]. rewrite C2; [exact F|]. tauto. }
      assert (CLOSED : forall u v, In u (s_unf s) -> dnum s c <= dnum s u -> sedge u v -> fin s v \/ (In v (s_unf s) /\ dnum s c <= dnum s v)).
      { intros u v Hu Lu ED. apply In_nth_error in ED as (i & Hi). destruct (i_C _ I u i v Hu Hi) as [A B].
        - cbn [setstk s_stk]. intros e [E|E]; [injection E as <- <-; apply nth_error_Some; congruence|]. exfalso. apply (in_map fst) in E. pose proof (PATH _ E). cbn [fst] in H. lia.
        - apply (i_disc _ I) in A as [A|A]; [left; exact A|right]. split; [exact A|]. destruct (Nat.le_gt_cases (dnum s c) (dnum s v)) as [L|G]; [auto|]. exfalso. apply (B A c); [cbn [setstk s_rts]; rewrite ER; left; auto|]. split; [exact G|exact Lu]. }
      assert (NEWR : forall u v, In u (s_unf s) -> dnum s c <= dnum s u -> In v (s_unf s) -> dnum s c <= dnum s v -> sreach u v).
      { intros u v Hu Lu Hv Lv. apply rt_trans with c.
        - apply (i_B _ I u c Hu Hc Lu). intros q Hq [Q1 _]. cbn [setstk s_rts] in Hq. pose proof (TOP q Hq). change (dnum (setstk s ((c, length (nth c rows [])) :: st))) with (dnum s) in Q1. lia.
        - apply (i_A _ I c v Hc Hv Lv). }
      assert (FS : forall u, fin s u -> forall v, In v (s_unf s) -> ~ sreach u v) by (intros u Fu v Hv R; apply (i_unf _ I v Hv); exact (fin_reach _ u v I Fu R)).
      pose proof I as I0. destruct I0. cbn [setstk s_num s_comp s_cnt s_cc s_bs s_unf s_rts s_stk] in *. change (dnum (setstk s ((c, length (nth c rows [])) :: st))) with (dnum s) in *. change (disc (setstk s ((c, length (nth c rows [])) :: st))) with (disc s) in *. change (fin (setstk s ((c, length (nth c rows [])) :: st))) with (fin s) in *.
      constructor; cbn [s' s_num s_comp s_cnt s_cc s_bs s_unf s_rts s_stk]; fold s'; change (dnum s') with (dnum s); change (disc s') with (disc s).
      * assumption.
      * rewrite LC. assumption.
      * rewrite LBS, app_length. cbn. lia.
      * assumption.
      * assumption.
      * intro v. rewrite FN, HU, i_disc0. split; [|tauto]. intros [H|H]; [auto|]. destruct (Nat.le_gt_cases (dnum s c) (dnum s v)); auto.
      * intros v Hv F. apply HU in Hv as [Hv Lv]. apply FN in F as [F|[_ F]]; [apply (i_unf0 v Hv F)|lia].
      * exact SU.
      * rewrite ER in i_rs0. eapply ss_tail; eauto.
      * rewrite ES. cbn [map fst] in i_ss0. eapply ss_tail; eauto.
      * rewrite ES. intros v Hv. apply HU. split; [apply i_su0; right; exact Hv|apply PATH; exact Hv].
      * rewrite ES. intros v Hv. pose proof (i_rst0 v (ROOTS v Hv)) as [E|E]; [|exact E]. exfalso. cbn [fst] in E. rewrite ER in i_rs0. pose proof (ss_head _ _ _ i_rs0 v Hv) as Z. cbn in Z. subst v. lia.
      * intros x y Hx Hy. apply HU in Hx as [Hx _]. apply HU in Hy as [Hy _]. auto.
      * intros x y Hx Hy L NR. apply HU in Hx as [Hx Lx]. apply HU in Hy as [Hy _]. apply i_B0; auto. intros q Hq Q. rewrite ER in Hq. destruct Hq as [<-|Hq]; [lia|]. exact (NR q Hq Q).
      * rewrite ES. intros u i v Hu Hi Hs. apply HU in Hu as [Hu Lu]. destruct (i_C0 u i v Hu Hi) as [A B]; [intros e [E|E]; [injection E as <- _; lia|apply Hs; exact E]|]. split; [exact A|]. intros Hv q Hq. apply HU in Hv as [Hv _]. apply (B Hv). apply ROOTS, Hq.
      * intros x Hx. apply HU in Hx as [Hx Lx]. destruct (i_E0 x Hx) as (q & Hq & L). rewrite ER in Hq. destruct Hq as [<-|Hq]; [lia|]. exists q. auto.
      * intros u v Fu ED. apply FN. apply FN in Fu as [Fu|[Hu Lu]]; [left; eapply i_F0; eauto|]. apply (CLOSED u v); auto.
      * intros u v Fu Fv. apply FN in Fu as [Fu|[Hu Lu]]; apply FN in Fv as [Fv|[Hv Lv]].
        -- rewrite !C2; [apply i_comp0; auto| |]; intros [X _]; [apply (i_unf0 v X Fv)|apply (i_unf0 u X Fu)].
        -- rewrite (C1 v Hv Lv), C2 by (intros [X _]; apply (i_unf0 u X Fu)). split; [intro Q; apply i_cc0 in Q; lia|]. intros [R _]. exfalso. exact (FS u Fu v Hv R).
        -- rewrite (C1 u Hu Lu), C2 by (intros [X _]; apply (i_unf0 v X Fv)). split; [intro Q; symmetry in Q; apply i_cc0 in Q; lia|]. intros [_ R]. exfalso. exact (FS v Fv u Hu R).
        -- rewrite (C1 u Hu Lu), (C1 v Hv Lv). split; [intros _; split; apply NEWR; auto|auto].
      * intros v q Q. assert (F : fin s' v) by (unfold fin, s'; cbn [s_comp]; congruence). apply FN in F as [F|[Hv Lv]]; [|rewrite C1 in Q by auto; injection Q as <-; lia].
        rewrite C2 in Q by (intros [X _]; apply (i_unf0 v X F)). apply i_cc0 in Q. lia.
      * intros q Hq. destruct (Nat.eq_dec q (s_cc s)) as [->|NE]; [exists c; apply C1; auto|]. destruct (i_ne0 q ltac:(lia)) as (v & Hv). exists v. rewrite C2; [exact Hv|]. intros [X _]. apply (i_unf0 v X). unfold fin. congruence.
      * intros u v p q Eu Ev ED. assert (Fu : fin s' u) by (unfold fin, s'; cbn [s_comp]; congruence). assert (Fv : fin s' v) by (unfold fin, s'; cbn [s_comp]; congruence).
        assert (Qc : q <= s_cc s). { apply FN in Fv as [F|[Hv Lv]]; [|rewrite C1 in Ev by auto; injection Ev as <-; lia]. rewrite C2 in Ev by (intros [X _]; apply (i_unf0 v X F)). apply i_cc0 in Ev. lia. }
        apply FN in Fu as [F|[Hu Lu]]; [|rewrite C1 in Eu by auto; injection Eu as <-; exact Qc]. pose proof (i_F0 u v F ED) as F'.
        rewrite C2 in Eu by (intros [X _]; apply (i_unf0 u X F)). rewrite C2 in Ev by (intros [X _]; apply (i_unf0 v X F')). exact (i_top0 u v p q Eu Ev ED).
    + exists s. split; [reflexivity|]. split; [|auto]. assert (NR : ~ In c (s_rts s)).
      { intro H. assert (D : dnum s c = dnum s r). { apply Nat.le_antisymm; [apply TOP; exact H|]. assert (Q : In r (map fst ((c, length (nth c rows [])) :: st))) by (apply (i_rst _ I); cbn [setstk s_rts]; rewrite ER; left; auto). cbn [map fst In] in Q. destruct Q as [->|Q]; [auto|]. pose proof (PATH r Q). lia. }
        apply NE. apply (i_inj _ I); [apply (unf_disc _ _ I Hc)| |exact D]. apply (unf_disc _ _ I), (i_su _ I), (i_rst _ I). cbn [setstk s_rts]. rewrite ER. left. auto. }
      destruct I. cbn [setstk s_num s_comp s_cnt s_cc s_bs s_unf s_rts s_stk] in *. constructor; try assumption; rewrite ES.
      * cbn [map fst] in i_ss0. eapply ss_tail; eauto.
      * intros v Hv. apply i_su0. right. exact Hv.
      * intros v Hv. destruct (i_rst0 v Hv) as [E|E]; [cbn [fst] in E; subst v; contradiction|exact E].
      * intros u i v Hu Hi Hs. apply (i_C0 u i v Hu Hi). intros e [E|E]; [injection E as <- <-; apply nth_error_Some; congruence|apply Hs; exact E].
Qed.

Lemma setstk_self s : setstk s (s_stk s) = s. Proof. destruct s; reflexivity. Qed.

Lemma loop_ok : forall fuel s, sinv s -> length (s_stk s) + 2 * undisc s <= fuel -> exists s', scc_loop fuel rows s = Some s' /\ sinv s' /\ s_stk s' = [].
Proof.
  induction fuel as [|f IH]; intros s I L; cbn [scc_loop].
  - destruct (s_stk s) as [|[c e] st] eqn:ES; [|cbn in L; lia]. exists s. auto.
  - destruct (s_stk s) as [|[c e] st] eqn:ES; [exists s; auto|]. cbn [length] in L.
    assert (Lc : c < n) by (apply (disc_lt s c I), (unf_disc _ _ I), (i_su _ I); rewrite ES; left; reflexivity).
    rewrite (nth_error_nth' _ []) by exact Lc. fold (setstk s st).
    destruct (scan_ok c st _ e s (le_n _) I ES) as [(s' & -> & ES' & I' & U & _)|(s' & t & e' & -> & ES' & RT & NE & I' & U & _)].
    + destruct (close_ok s' c st I' ES') as (s'' & -> & I'' & ES'' & U''). apply IH; [exact I''|]. rewrite ES''. lia.
    + unfold scc_close. destruct (s_rts s') as [|r rs]; [discriminate RT|]. injection RT as ->. destruct (Nat.eqb_spec c t); [congruence|]. apply IH; [exact I'|]. rewrite ES'. cbn [length]. lia.
Qed.

(* no vertex is forgotten *)
Lemma scan_mono v : forall row c e s s', scc_scan c e row s = Some s' -> disc s v -> disc s' v.
Proof.
  induction row as [|[t|] row IH]; intros c e s s' E D; cbn [scc_scan] in E; [injection E as <-; exact D| |eapply IH; eauto].
  destruct (nth_error (s_num s) t) as [[x|]|] eqn:EN; [| |discriminate E].
  - destruct (nth_error (s_comp s) t) as [[q|]|]; [eapply IH; eauto| |discriminate E]. destruct (scc_merge _ _ _); [|discriminate E]. eapply IH; eauto.
  - assert (Q : disc (scc_discover s t ((t, 0) :: (c, e) :: s_stk s)) v).
    { unfold disc, scc_discover. cbn [s_num]. destruct (Nat.eq_dec v t) as [->|NE]; [rewrite nth_upd_eq by (apply nth_error_Some; congruence); discriminate|rewrite nth_upd_neq by auto; exact D]. }
    destruct (nth_error (s_comp s) t); injection E as <-; exact Q.
Qed.
Lemma close_mono v c s s' : scc_close c s = Some s' -> disc s v -> disc s' v.
Proof. unfold scc_close. destruct (s_rts s); [discriminate|]. destruct (c =? n0); [|intro E; injection E as <-; auto]. destruct (scc_pop _ _ _ _ _) as [[[? ?] ?]|]; [|discriminate]. intro E. injection E as <-. auto. Qed.
Lemma loop_mono v : forall fuel s s', scc_loop fuel rows s = Some s' -> disc s v -> disc s' v.
Proof.
  induction fuel as [|f IH]; intros s s' E D; cbn [scc_loop] in E; destruct (s_stk s) as [|[c e] st]; try (injection E as <-; exact D); [discriminate E|].
  destruct (nth_error rows c); [|discriminate E]. destruct (scc_scan _ _ _ _) as [s1|] eqn:E1; [|discriminate E]. destruct (scc_close c s1) as [s2|] eqn:E2; [|discriminate E].
  eapply IH; [exact E|]. eapply close_mono; [exact E2|]. eapply scan_mono; [exact E1|]. exact D.
Qed.

Lemma dfs_ok s v : sinv s -> s_stk s = [] -> ~ disc s v -> v < n -> exists s', scc_dfs rows s v = Some s' /\ sinv s' /\ s_stk s' = [] /\ disc s' v /\ forall u, disc s u -> disc s' u.
Proof.
  intros I ES ND Lv. unfold scc_dfs. rewrite ES. assert (UE : s_unf s = []).
  { destruct (s_unf s) as [|x l] eqn:E; [auto|]. exfalso. destruct (i_E _ I x) as (r & Hr & _); [rewrite E; left; auto|]. apply (i_rst _ I) in Hr. rewrite ES in Hr. destruct Hr. }
  assert (I1 : sinv (scc_discover s v [(v, 0)])) by (apply discover_inv; auto).
  assert (U1 : S (undisc (scc_discover s v [(v, 0)])) = undisc s) by (apply undisc_upd; [rewrite (i_ln _ I); exact Lv|]; unfold disc in ND; destruct (nth v (s_num s) None); [exfalso; apply ND; discriminate|reflexivity]).
  assert (UL : undisc s <= n). { unfold undisc. rewrite <- (i_ln _ I). clear. induction (s_num s) as [|o l IH]; [auto|]. cbn [filter]. destruct o; cbn [length]; lia. }
  destruct (loop_ok (2 * length rows + 1) _ I1) as (s' & E & I' & ES').
  { cbn [scc_discover s_stk length]. fold n. lia. }
  exists s'. split; [exact E|]. split; [exact I'|]. split; [exact ES'|]. split.
  - eapply loop_mono; [exact E|]. unfold disc, scc_discover. cbn [s_num]. rewrite nth_upd_eq by (rewrite (i_ln _ I); exact Lv). discriminate.
  - intros u Du. eapply loop_mono; [exact E|]. unfold disc, scc_discover. cbn [s_num]. rewrite nth_upd_neq by (intros ->; auto). exact Du.
Qed.

Lemma nodes_ok : forall vs s, sinv s -> s_stk s = [] -> (forall v, In v vs -> v < n) -> exists s', scc_nodes rows vs s = Some s' /\ sinv s' /\ s_stk s' = [] /\ (forall v, In v vs -> disc s' v) /\ forall u, disc s u -> disc s' u.
Proof.
  induction vs as [|v vs IH]; intros s I ES L; cbn [scc_nodes].
  - exists s. split; [reflexivity|]. split; [exact I|]. split; [exact ES|]. split; [intros v []|auto].
  - assert (Lv : v < n) by (apply L; left; auto). rewrite (nth_error_nth' _ None) by (rewrite (i_ln _ I); exact Lv). destruct (nth v (s_num s) None) as [x|] eqn:EN.
    + assert (D : disc s v) by (unfold disc; congruence). destruct (IH s I ES (fun u H => L u (or_intror H))) as (s' & E & I' & ES' & A & B). exists s'. split; [exact E|]. split; [exact I'|]. split; [exact ES'|]. split; [intros u [<-|Hu]; auto|auto].
    + assert (D : ~ disc s v) by (unfold disc; intro H; apply H; exact EN). destruct (dfs_ok s v I ES D Lv) as (s1 & -> & I1 & ES1 & A1 & B1).
      destruct (IH s1 I1 ES1 (fun u H => L u (or_intror H))) as (s' & E & I' & ES' & A & B). exists s'. split; [exact E|]. split; [exact I'|]. split; [exact ES'|]. split; [intros u [<-|Hu]; auto|auto].
Qed.

Lemma start_inv bs : sinv (mk_scc (repeat None n) (repeat None n) 0 0 bs [] [] []).
Proof.
  assert (Z : forall v k, nth v (repeat (@None nat) k) None = None) by (intros v k; revert v; induction k as [|k IH]; intros [|v]; cbn; auto).
  constructor; cbn [s_num s_comp s_cnt s_cc s_bs s_unf s_rts s_stk map]; try (intros; contradiction); unfold disc, fin; cbn [s_num s_comp]; try apply repeat_length; try lia; try constructor; try (intros; rewrite ?Z in *; cbn in *; try congruence; try tauto; try lia; fail).
Qed.

(* strong_components on an object whose stacks are empty *)
Lemma scc_ok o : s_unf o = [] -> s_rts o = [] -> s_stk o = [] -> exists s, strong_components o rows = Some s /\ sinv s /\ s_unf s = [] /\ s_rts s = [] /\ s_stk s = [] /\ forall v, v < n -> fin s v.
Proof.
  intros O1 O2 O3. unfold strong_components. fold n. rewrite O1, O2, O3. destruct (nodes_ok (seq 0 n) _ (start_inv (s_bs o)) eq_refl) as (s & E & I & ES & A & _); [intros v Hv; apply in_seq in Hv; lia|].
  assert (RE : s_rts s = []). { destruct (s_rts s) as [|r l] eqn:Q; [auto|]. exfalso. assert (H : In r (s_rts s)) by (rewrite Q; left; auto). apply (i_rst _ I) in H. rewrite ES in H. destruct H. }
  assert (UE : s_unf s = []). { destruct (s_unf s) as [|x l] eqn:Q; [auto|]. exfalso. destruct (i_E _ I x) as (r & Hr & _); [rewrite Q; left; auto|]. rewrite RE in Hr. destruct Hr. }
  exists s. split; [exact E|]. split; [exact I|]. split; [exact UE|]. split; [exact RE|]. split; [exact ES|]. intros v Hv. assert (D : disc s v) by (apply A, in_seq; lia). apply (i_disc _ I) in D as [D|D]; [exact D|]. rewrite UE in D. destruct D.
Qed.

(* block sizes *)
Definition has (q : nat) (o : option nat) : bool := match o with Some x => x =? q | None => false end.
Definition bcount (comp : list (option nat)) (bs : list nat) : Prop := forall q, nth q bs 0 = length (filter (has q) comp).
Definition bsinv (s : scc) : Prop := length (s_bs s) = s_cc s /\ bcount (s_comp s) (s_bs s).

Lemma has_upd l w c q : w < length l -> nth w l None = None -> length (filter (has q) (upd l w (Some c))) = length (filter (has q) l) + if c =? q then 1 else 0.
Proof. revert w. induction l as [|a l IH]; intros [|w] L N0; cbn in *; try lia; [subst a; cbn [has]; destruct (c =? q); cbn [length]; lia|]. destruct (has q a); cbn [length]; rewrite IH by (auto; lia); lia. Qed.

Lemma pop_bs c cc : forall unf comp bs r, NoDup unf -> (forall w, In w unf -> nth w comp None = None) -> bcount comp bs ->
  scc_pop c cc unf comp bs = Some r -> bcount (snd (fst r)) (snd r) /\ length (snd r) = length bs.
Proof.
  induction unf as [|w l IH]; intros comp bs r ND NF B E; cbn [scc_pop] in E; [discriminate E|]. inversion ND as [|? ? N1 N2]; subst.
  destruct (Nat.ltb_spec w (length comp)) as [L1|]; [|discriminate E]. destruct (Nat.ltb_spec cc (length bs)) as [L2|]; [|discriminate E]. cbn [andb] in E.
  assert (B' : bcount (upd comp w (Some cc)) (upd bs cc (nth cc bs 0 + 1))).
  { intro q. rewrite has_upd by (auto; apply NF; left; auto). destruct (Nat.eqb_spec cc q) as [<-|NE]; [rewrite nth_upd_eq by auto; rewrite (B cc); lia|rewrite nth_upd_neq by auto; rewrite (B q); lia]. }
  destruct (w =? c); [injection E as <-; cbn [fst snd]; split; [exact B'|apply upd_length]|]. assert (NF' : forall v, In v l -> nth v (upd comp w (Some cc)) None = None); [|destruct (IH _ _ r N2 NF' B' E) as [X Y]; split; [exact X|rewrite Y; apply upd_length]].
  intros v Hv. rewrite nth_upd_neq by (intros ->; contradiction). apply NF. right. auto.
Qed.

Lemma ss_nodup s l : StronglySorted (fun a b => dnum s b < dnum s a) l -> NoDup l.
Proof. induction l as [|a l IH]; intro S; constructor; [|apply IH; eapply ss_tail; eauto]. intro H. pose proof (ss_head _ _ _ S a H) as Q. cbn in Q. lia. Qed.

Lemma close_bs s c st s' : sinv (setstk s ((c, length (nth c rows [])) :: st)) -> scc_close c s = Some s' -> bsinv s -> bsinv s'.
Proof.
  intros I E [B1 B2]. unfold scc_close in E. destruct (s_rts s) as [|r rs]; [discriminate E|]. destruct (c =? r); [|injection E as <-; split; assumption].
  destruct (scc_pop _ _ _ _ _) as [[[unf comp] bs]|] eqn:P; [|discriminate E]. injection E as <-. apply pop_bs in P.
  - destruct P as [P1 P2]. cbn [fst snd] in P1, P2. split; [cbn [s_bs s_cc]; rewrite P2, app_length, B1; cbn; lia|exact P1].
  - apply (ss_nodup (setstk s ((c, length (nth c rows [])) :: st))). exact (i_us _ I).
  - intros w Hw. pose proof (i_unf _ I w Hw) as Q. unfold fin in Q. cbn [setstk s_comp] in Q. destruct (nth w (s_comp s) None); [exfalso; apply Q; discriminate|reflexivity].
  - intro q. rewrite <- (B2 q). destruct (Nat.lt_ge_cases q (length (s_bs s))) as [L|L]; [apply app_nth1; auto|]. rewrite app_nth2 by auto. rewrite (nth_overflow _ _ L). destruct (q - length (s_bs s)) as [|[|k]]; reflexivity.
Qed.

Lemma loop_bs : forall fuel s s', sinv s -> scc_loop fuel rows s = Some s' -> bsinv s -> bsinv s'.
Proof.
  induction fuel as [|f IH]; intros s s' I E B; cbn [scc_loop] in E; destruct (s_stk s) as [|[c e] st] eqn:ES; try (injection E as <-; exact B); [discriminate E|].
  assert (Lc : c < n) by (apply (disc_lt s c I), (unf_disc _ _ I), (i_su _ I); rewrite ES; left; reflexivity).
  rewrite (nth_error_nth' _ []) in E by exact Lc. fold (setstk s st) in E.
  destruct (scan_ok c st _ e s (le_n _) I ES) as [(s1 & E1 & ES' & I' & U & C1 & C2 & C3)|(s1 & t & e' & E1 & ES' & RT & NE & I' & U & C1 & C2 & C3)]; rewrite E1 in E.
  - destruct (close_ok s1 c st I' ES') as (s2 & E2 & I'' & _). rewrite E2 in E. eapply IH; [exact I''|exact E|]. eapply close_bs; [exact I'|exact E2|]. unfold bsinv. rewrite C1, C2, C3. exact B.
  - unfold scc_close in E. destruct (s_rts s1) as [|r rs]; [discriminate RT|]. injection RT as ->. destruct (Nat.eqb_spec c t); [congruence|]. eapply IH; [exact I'|exact E|]. unfold bsinv. rewrite C1, C2, C3. exact B.
Qed.

Lemma nodes_bs : forall vs s s', sinv s -> s_stk s = [] -> (forall v, In v vs -> v < n) -> scc_nodes rows vs s = Some s' -> bsinv s -> bsinv s'.
Proof.
  induction vs as [|v vs IH]; intros s s' I ES L E B; cbn [scc_nodes] in E; [injection E as <-; exact B|].
  assert (Lv : v < n) by (apply L; left; auto). rewrite (nth_error_nth' _ None) in E by (rewrite (i_ln _ I); exact Lv). destruct (nth v (s_num s) None) as [x|] eqn:EN.
  - eapply IH; [exact I|exact ES|intros u Hu; apply L; right; exact Hu|exact E|exact B].
  - assert (D : ~ disc s v) by (unfold disc; intro H; apply H; exact EN). destruct (dfs_ok s v I ES D Lv) as (s1 & E1 & I1 & ES1 & _ & _). rewrite E1 in E.
    eapply IH; [exact I1|exact ES1|intros u Hu; apply L; right; exact Hu|exact E|]. unfold scc_dfs in E1. rewrite ES in E1. eapply loop_bs; [|exact E1|exact B]. apply discover_inv; auto.
    left. destruct (s_unf s) as [|x l] eqn:Q; [auto|]. exfalso. destruct (i_E _ I x) as (r & Hr & _); [rewrite Q; left; auto|]. apply (i_rst _ I) in Hr. rewrite ES in Hr. destruct Hr.
Qed.

Lemma scc_sizes o s : s_unf o = [] -> s_rts o = [] -> s_stk o = [] -> s_bs o = [] -> strong_components o rows = Some s -> bsinv s.
Proof.
  intros O1 O2 O3 O4 E. unfold strong_components in E. fold n in E. rewrite O1, O2, O3, O4 in E. eapply nodes_bs; [apply (start_inv [])|reflexivity| |exact E|].
  - intros v Hv. apply in_seq in Hv. lia.
  - split; [reflexivity|]. intro q. cbn [s_bs s_comp]. rewrite (proj2 (length_zero_iff_nil _)); [destruct q; reflexivity|]. clear. induction n as [|k IH]; [reflexivity|exact IH].
Qed.
End Scc.
