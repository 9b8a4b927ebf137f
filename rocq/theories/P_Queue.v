(* P_Queue.v - proofs about M_Queue: mutual exclusion, conservation of problems, sizes, progress *)
From Verif Require Export M_Queue.
From Coq Require Import Permutation Lia.

(* which mutexes a thread holds, and which problems it carries *)
Definition hsend (t : tst) : bool :=
  match t with
  | AStore _ _ | AWeight _ _ | AHave _ | AUnPop _ | AUnSend | BSwap _ _ | BWt _ _ | BUn1 _ | BUnN _ _ | PHave _ | PWt _ | PTake _ | PUnSend _ _ | FUnSend _ => true
  | _ => false
  end.
Definition hpop (t : tst) : option nat :=
  match t with
  | Idle | ALock _ _ | AUnSend | PLock _ _ | RLock _ _ => None
  | ACheck _ m | ASend _ m | AStore _ m | AWeight _ m | AHave m | AUnPop m | BSize _ m | BWeight _ m | BLock _ m | BSwap _ m | BWt _ m
  | BUn1 m | BUn2 m | BUnN _ m | BPush _ m | BUnPop m | PCheck m _ | PSend m | PHave m | PWt m | PTake m | PUnSend m _ | PUnPop m _ | FUnSend m | FUnPop m
  | RLoop m _ | RUn m => Some m
  end.
Definition olist (o : option prob) : list prob := match o with Some p => [p] | None => [] end.
Definition hands (t : tst) : list prob :=
  match t with
  | ALock p _ | ACheck p _ | ASend p _ | AStore p _ | BSize p _ | BWeight p _ | BLock p _ | BSwap p _ | BUnN p _ | BPush p _ => [p]
  | PUnSend _ c | PUnPop _ c => olist c
  | _ => []
  end.
Definition pend (m : nat) (t : tst) : nat :=
  match t with
  | BWeight _ k | BLock _ k | BSwap _ k | BUnN _ k | BPush _ k => if k =? m then 1 else 0
  | _ => 0
  end.
Definition tok (nt : nat) (t : tst) : Prop :=
  match t with
  | Idle | AUnSend => True
  | ALock _ m | ACheck _ m | ASend _ m | AStore _ m | AWeight _ m | AHave m | AUnPop m | BSize _ m | BWeight _ m | BLock _ m | BSwap _ m | BWt _ m
  | BUn1 m | BUn2 m | BUnN _ m | BPush _ m | BUnPop m | PLock m _ | PCheck m _ | PSend m | PHave m | PWt m | PTake m | FUnSend m | FUnPop m
  | RLock m _ | RLoop m _ | RUn m => m < nt
  | PUnSend m c | PUnPop m c => m < nt /\ c <> None
  end.

Definition prob_dec : forall p q : prob, {p = q} + {p <> q}.
Proof. decide equality; [apply N.eq_dec | apply Nat.eq_dec]. Defined.
Definition cnt (x : prob) (l : list prob) : nat := count_occ prob_dec l x.
Lemma cnt_app x a b : cnt x (a ++ b) = cnt x a + cnt x b.
Proof. unfold cnt. apply count_occ_app. Qed.
Lemma cnt_flat {A} (f : A -> list prob) x d t : forall l i, i < length l ->
  cnt x (flat_map f (upd l i t)) + cnt x (f (nth i l d)) = cnt x (flat_map f l) + cnt x (f t).
Proof.
  induction l as [|a l IH]; intros i L; [inversion L|]. destruct i as [|i]; cbn [upd flat_map nth]; rewrite !cnt_app; [lia|].
  cbn in L. specialize (IH i ltac:(lia)). lia.
Qed.
Lemma sum_upd {A} (f : A -> nat) d t : forall l i, i < length l ->
  list_sum (map f (upd l i t)) + f (nth i l d) = list_sum (map f l) + f t.
Proof.
  induction l as [|a l IH]; intros i L; [inversion L|]. destruct i as [|i]; cbn [upd map nth list_sum fold_right]; [lia|].
  cbn in L. specialize (IH i ltac:(lia)). unfold list_sum in *. lia.
Qed.

Definition top_ok (top : list prob -> option (prob * list prob)) : Prop :=
  forall l, match top l with Some (p, r) => Permutation l (p :: r) | None => l = [] end.

Definition held (s : qst) : list prob :=
  flat_map hands (q_thr s) ++ flat_map (fun l => l) (q_pq s) ++ olist (q_send s) ++ q_ret s ++ map fst (q_drop s) ++ q_lost s.

Definition th (s : qst) (i : nat) : tst := nth i (q_thr s) Idle.

Record qinv (s : qst) : Prop := mk_qinv {
  i_len : length (q_pq s) = length (q_thr s) /\ length (q_sz s) = length (q_thr s) /\ length (q_pm s) = length (q_thr s);
  i_tok : forall i, tok (length (q_thr s)) (th s i);
  i_sm : forall i, q_sm s = Some i <-> hsend (th s i) = true;
  i_pm : forall i m, nth m (q_pm s) None = Some i <-> hpop (th s i) = Some m;
  i_have : q_have s = true -> q_send s <> None;
  i_put : forall i, match th s i with AWeight _ _ | AHave _ => q_send s <> None | _ => True end;
  i_take : forall i, match th s i with PWt _ | PTake _ => q_have s = true | _ => True end;
  i_null : q_null s = false;
  i_cons : forall x, cnt x (q_added s) = cnt x (held s);
  i_size : forall m, m < length (q_thr s) -> nth m (q_sz s) 0 = length (nth m (q_pq s) []) + list_sum (map (pend m) (q_thr s));
  i_drop : Forall (fun d => (snd d <= snd (fst d))%N) (q_drop s)
}.

Lemma owns_ok i o : owns i o = true <-> o = Some i.
Proof. unfold owns. destruct o as [j|]; [|split; discriminate]. rewrite Nat.eqb_eq. split; congruence. Qed.

Lemma flat_repeat {A B} (f : A -> list B) a n : f a = [] -> flat_map f (repeat a n) = [].
Proof. intros E. induction n; cbn; rewrite ?E; auto. Qed.
Lemma nth_repeat_same {A} (a : A) n i : nth i (repeat a n) a = a.
Proof. revert i. induction n; destruct i; cbn; auto. Qed.

Lemma qinv_init nt : qinv (q_init nt).
Proof.
  assert (T : forall i, th (q_init nt) i = Idle) by (intro i; unfold th; cbn; apply nth_repeat_same).
  constructor; try (intro i; rewrite ?T); cbn; auto; rewrite ?repeat_length; auto.
  - split; discriminate.
  - intros m. rewrite nth_repeat_same. split; discriminate.
  - discriminate.
  - unfold held. cbn. rewrite !flat_repeat; reflexivity.
  - intros _. rewrite !nth_repeat_same. cbn. clear T. induction nt; cbn; auto.
Qed.

Lemma nth_error_Some_lt {A} (l : list A) i a : nth_error l i = Some a -> i < length l.
Proof. intros E. apply nth_error_Some. congruence. Qed.

Ltac qcase H T L :=
  let t := fresh "t" in
  unfold qstep, option_map, lock_pm, lock_sm, unlock_pm, unlock_sm, log_ret in H;
  match type of H with context [nth_error ?l ?i] => destruct (nth_error l i) as [t|] eqn:T; [|discriminate H] end;
  assert (L := nth_error_Some_lt _ _ _ T);
  apply (nth_error_nth _ _ Idle) in T;
  destruct t; cbv beta iota in H; try discriminate H;
  repeat match type of H with
  | context [match ?x with _ => _ end] => lazymatch x with context [match _ with _ => _ end] => fail | _ => let E := fresh "E" in destruct x eqn:E; cbv beta iota in H; try discriminate H end
  end;
  injection H as <-.

Ltac thr_split j i := unfold th in *; cbn [q_thr goto set_pq set_have set_send set_wt set_pm set_sm set_ub log_add log_ret log_drop log_lost] in *;
  destruct (Nat.eq_dec j i) as [->|]; [rewrite nth_upd_eq by assumption | rewrite nth_upd_neq by congruence].

Section Step.
Context (top : list prob -> option (prob * list prob)) (TOK : top_ok top).

Lemma step_ub i c s s' : qstep top i c s = Some s' -> q_ub s' = false -> q_ub s = false.
Proof. intros H. qcase H T L; cbn; auto; discriminate. Qed.

Lemma step_len i c s s' : qstep top i c s = Some s' -> length (q_thr s') = length (q_thr s).
Proof. intros H. qcase H T L; cbn; rewrite ?upd_length; auto. Qed.

Lemma step_lens i c s s' : qinv s -> qstep top i c s = Some s' ->
  length (q_pq s') = length (q_thr s') /\ length (q_sz s') = length (q_thr s') /\ length (q_pm s') = length (q_thr s').
Proof. intros I H. pose proof (i_len _ I). qcase H T L; cbn; rewrite ?upd_length; auto. Qed.

Lemma step_tok i c s s' : qinv s -> qstep top i c s = Some s' -> forall j, tok (length (q_thr s')) (th s' j).
Proof.
  intros I H j. rewrite (step_len _ _ _ _ H). pose proof (i_tok _ I i) as KI. pose proof (i_tok _ I j) as KJ.
  pose proof (i_have _ I) as HV. pose proof (i_take _ I i) as TK. unfold th in KI, KJ, TK.
  qcase H T L; rewrite T in KI, TK; thr_split j i; cbn in *; auto;
  try (apply Nat.ltb_lt; assumption); try tauto; try (split; [tauto|congruence]).
Qed.

Lemma step_sm i c s s' : qinv s -> qstep top i c s = Some s' -> q_ub s' = false ->
  forall j, q_sm s' = Some j <-> hsend (th s' j) = true.
Proof.
  intros I H U j. pose proof (i_sm _ I i) as KI. pose proof (i_sm _ I j) as KJ. unfold th in KI, KJ.
  qcase H T L; rewrite T in KI; thr_split j i; cbn in *; auto; try discriminate U;
  repeat match goal with E : owns _ _ = true |- _ => apply owns_ok in E end; intuition congruence.
Qed.

Lemma step_pm i c s s' : qinv s -> qstep top i c s = Some s' -> q_ub s' = false ->
  forall j m, nth m (q_pm s') None = Some j <-> hpop (th s' j) = Some m.
Proof.
  intros I H U j m0. pose proof (i_pm _ I i m0) as KI. pose proof (i_pm _ I j m0) as KJ. pose proof (i_tok _ I i) as KT.
  pose proof (proj2 (proj2 (i_len _ I))) as LN. unfold th in KI, KJ, KT.
  qcase H T L; rewrite T in KI, KT; thr_split j i; cbn in *; auto; try discriminate U;
  repeat match goal with E : owns _ _ = true |- _ => apply owns_ok in E end;
  try (match goal with |- context [upd (q_pm _) ?k _] => destruct (Nat.eq_dec m0 k) as [->|];
    [rewrite nth_upd_eq by (rewrite LN; tauto) | rewrite nth_upd_neq by congruence] end);
  intuition congruence.
Qed.

(* a second thread holding the send mutex is impossible *)
Lemma sm_uniq s i j : qinv s -> hsend (th s i) = true -> hsend (th s j) = true -> i = j.
Proof. intros I A B. apply (i_sm _ I) in A, B. congruence. Qed.

Lemma step_have i c s s' : qinv s -> qstep top i c s = Some s' -> q_have s' = true -> q_send s' <> None.
Proof.
  intros I H. pose proof (i_have _ I) as HV. pose proof (i_put _ I i) as PU. unfold th in PU.
  qcase H T L; rewrite T in PU; cbn; auto; try congruence.
Qed.

Lemma step_put i c s s' : qinv s -> qstep top i c s = Some s' ->
  forall j, match th s' j with AWeight _ _ | AHave _ => q_send s' <> None | _ => True end.
Proof.
  intros I H j. pose proof (i_put _ I i) as PI. pose proof (i_put _ I j) as PJ. pose proof (sm_uniq s i j I) as UN. unfold th in PI, PJ, UN.
  qcase H T L; rewrite T in PI, UN; thr_split j i; cbn in *; auto; try congruence;
  destruct (nth j (q_thr s) Idle); auto; try congruence; exfalso; cbn in UN; specialize (UN eq_refl eq_refl); congruence.
Qed.

Lemma step_take i c s s' : qinv s -> qstep top i c s = Some s' ->
  forall j, match th s' j with PWt _ | PTake _ => q_have s' = true | _ => True end.
Proof.
  intros I H j. pose proof (i_take _ I i) as PI. pose proof (i_take _ I j) as PJ. pose proof (sm_uniq s i j I) as UN. unfold th in PI, PJ, UN.
  qcase H T L; rewrite T in PI, UN; thr_split j i; cbn in *; auto; try congruence;
  destruct (nth j (q_thr s) Idle); auto; try congruence; exfalso; cbn in UN; specialize (UN eq_refl eq_refl); congruence.
Qed.

Lemma step_null i c s s' : qinv s -> qstep top i c s = Some s' -> q_null s' = false.
Proof.
  intros I H. pose proof (i_null _ I) as NU. pose proof (i_tok _ I i) as KI. unfold th in KI.
  qcase H T L; rewrite T in KI; cbn in *; auto; exfalso; tauto.
Qed.

Lemma step_drop i c s s' : qinv s -> qstep top i c s = Some s' -> Forall (fun d => (snd d <= snd (fst d))%N) (q_drop s').
Proof.
  intros I H. pose proof (i_drop _ I) as D.
  qcase H T L; cbn; auto. constructor; auto. cbn. apply N.leb_le. assumption.
Qed.

Lemma cnt_cons x p l : cnt x (p :: l) = cnt x [p] + cnt x l.
Proof. change (p :: l) with ([p] ++ l). apply cnt_app. Qed.
Lemma cnt_top l p r x : top l = Some (p, r) -> cnt x l = cnt x [p] + cnt x r.
Proof.
  intros E. pose proof (TOK l) as K. rewrite E in K. rewrite <- cnt_cons. unfold cnt.
  apply (proj1 (Permutation_count_occ prob_dec _ _) K).
Qed.

Lemma step_cons i c s s' : qinv s -> qstep top i c s = Some s' -> forall x, cnt x (q_added s') = cnt x (held s').
Proof.
  intros I H x. pose proof (i_cons _ I x) as C. pose proof (i_tok _ I i) as KI. pose proof (proj1 (i_len _ I)) as LP.
  pose proof (i_have _ I) as HV. pose proof (i_take _ I i) as TK. unfold th in KI, TK.
  unfold held in *. rewrite !cnt_app in *.
  qcase H T L; rewrite T in KI, TK; cbn [tok] in KI;
  cbn [q_pq q_sz q_have q_send q_wt q_pm q_sm q_thr q_ub q_null q_added q_ret q_drop q_lost goto set_pq set_have set_send set_wt set_pm set_sm set_ub log_add log_drop log_lost map fst];
  (match goal with |- context [flat_map hands (upd ?l i ?t)] => pose proof (cnt_flat hands x Idle t l i L) as CH; rewrite T in CH; cbn [hands] in CH end);
  try (match goal with |- context [flat_map (fun l => l) (upd ?l0 ?m ?t)] => pose proof (cnt_flat (fun l => l) x [] t l0 m ltac:(rewrite LP; tauto)) as CP; cbn beta in CP end);
  try (match goal with E : top _ = Some _ |- _ => pose proof (cnt_top _ _ _ x E) end);
  repeat match goal with |- context [match ?o with Some _ => _ | None => _ end] => destruct o eqn:? end;
  repeat match goal with E : q_send s = _ |- _ => rewrite E in * end;
  cbn [olist] in *; rewrite ?(cnt_cons x _ (_ :: _)), ?(cnt_cons x _ (nth _ _ _)), ?(cnt_cons x _ (q_added s)), ?(cnt_cons x _ (q_ret s)), ?(cnt_cons x _ (map _ _)), ?(cnt_cons x _ (q_lost s)) in *;
  change (cnt x []) with 0 in *; try lia.
Qed.

Lemma step_size i c s s' : qinv s -> qstep top i c s = Some s' ->
  forall m, m < length (q_thr s') -> nth m (q_sz s') 0 = length (nth m (q_pq s') []) + list_sum (map (pend m) (q_thr s')).
Proof.
  intros I H m1. rewrite (step_len _ _ _ _ H). intros M1. pose proof (i_size _ I m1 M1) as C. pose proof (i_tok _ I i) as KI.
  pose proof (i_len _ I) as [LP [LZ _]]. unfold th in KI.
  qcase H T L; rewrite T in KI; cbn [tok] in KI;
  cbn [q_pq q_sz q_have q_send q_wt q_pm q_sm q_thr q_ub q_null q_added q_ret q_drop q_lost goto set_pq set_have set_send set_wt set_pm set_sm set_ub log_add log_drop log_lost map fst];
  (match goal with |- context [map (pend m1) (upd ?l i ?t)] => pose proof (sum_upd (pend m1) Idle t l i L) as CH; rewrite T in CH; cbn [pend] in CH end);
  try (match goal with E : top ?l = Some _ |- _ => pose proof (TOK l) as PE; rewrite E in PE; apply Permutation_length in PE; cbn [length] in PE end);
  try (match goal with |- context [upd (q_pq s) ?k _] =>
         destruct (Nat.eq_dec m1 k) as [->|NE]; [rewrite !nth_upd_eq by (rewrite ?LP, ?LZ; tauto) | rewrite !nth_upd_neq by congruence] end);
  repeat match type of CH with context [?a =? ?b] => destruct (Nat.eqb_spec a b) end;
  cbn [length]; try congruence; try lia.
Qed.

Lemma qinv_step i c s s' : qinv s -> qstep top i c s = Some s' -> q_ub s' = false -> qinv s'.
Proof.
  intros I H U. constructor.
  - eapply step_lens; eauto.
  - eapply step_tok; eauto.
  - eapply step_sm; eauto.
  - eapply step_pm; eauto.
  - eapply step_have; eauto.
  - eapply step_put; eauto.
  - eapply step_take; eauto.
  - eapply step_null; eauto.
  - eapply step_cons; eauto.
  - eapply step_size; eauto.
  - eapply step_drop; eauto.
Qed.

Lemma run_ub sched : forall s s', qrun top sched s = Some s' -> q_ub s' = false -> q_ub s = false.
Proof.
  induction sched as [|[i c] sched IH]; cbn; intros s s' H U; [congruence|].
  destruct (qstep top i c s) as [s1|] eqn:E; [|discriminate H]. eapply step_ub; eauto.
Qed.

Lemma qinv_run sched : forall s s', qinv s -> qrun top sched s = Some s' -> q_ub s' = false -> qinv s'.
Proof.
  induction sched as [|[i c] sched IH]; cbn; intros s s' I H U; [congruence|].
  destruct (qstep top i c s) as [s1|] eqn:E; [|discriminate H]. refine (IH s1 s' _ H U). eapply qinv_step; eauto. eapply run_ub; eauto.
Qed.

(* progress: some thread that is inside a call can make a step *)
Lemma step_send i s : qinv s -> hsend (th s i) = true -> exists s', qstep top i None s = Some s'.
Proof.
  intros I Hs. pose proof (i_have _ I) as HV. unfold th in Hs. unfold qstep.
  assert (L : i < length (q_thr s)) by (apply Nat.nle_gt; intros G; rewrite nth_overflow in Hs by lia; discriminate Hs).
  rewrite (nth_error_nth' _ Idle L). destruct (nth i (q_thr s) Idle); cbn in Hs; try discriminate Hs; eauto.
  destruct (q_have s); eauto. destruct (q_send s); eauto. destruct (HV eq_refl eq_refl).
Qed.

Lemma step_pop i m s : qinv s -> q_sm s = None -> hpop (th s i) = Some m -> exists s', qstep top i None s = Some s'.
Proof.
  intros I SM Hp. unfold th in Hp.
  assert (L : i < length (q_thr s)) by (apply Nat.nle_gt; intros G; rewrite nth_overflow in Hp by lia; discriminate Hp).
  pose proof (i_sm _ I i) as KS. unfold th in KS.
  unfold qstep, option_map, lock_sm. rewrite (nth_error_nth' _ Idle L), SM in *.
  destruct (nth i (q_thr s) Idle); cbn in Hp, KS; try discriminate Hp; eauto;
  try (exfalso; destruct KS as [_ KS]; specialize (KS eq_refl); discriminate KS).
  - destruct (sd && q_have s)%bool, (top (nth l (q_pq s) [])) as [[? ?]|]; eauto.
  - destruct (top (nth l (q_pq s) [])) as [[? ?]|]; eauto. destruct (b <=? snd p)%N; eauto.
Qed.

Lemma progress i s : qinv s -> th s i <> Idle -> exists j s', qstep top j None s = Some s'.
Proof.
  intros I NI. destruct (q_sm s) as [j|] eqn:SM.
  - apply (i_sm _ I) in SM. destruct (step_send j s I SM) as [s' E]. eauto.
  - assert (D : (exists m j, nth m (q_pm s) None = Some j) \/ forall m, nth m (q_pm s) None = None).
    { generalize (q_pm s). induction l as [|[j|] l IH]; [right; destruct m; auto | left; exists 0, j; auto |].
      destruct IH as [[m [j E]]|A]; [left; exists (S m), j; auto | right; destruct m; cbn; auto]. }
    destruct D as [[m [j E]]|FREE].
    + apply (i_pm _ I) in E. destruct (step_pop j m s I SM E) as [s' E']. eauto.
    + pose proof (fun m => i_pm _ I i m) as KP. exists i. unfold th in *.
      assert (L : i < length (q_thr s)) by (apply Nat.nle_gt; intros G; rewrite nth_overflow in NI by lia; congruence).
      unfold qstep, option_map, lock_sm, lock_pm. rewrite (nth_error_nth' _ Idle L).
      destruct (nth i (q_thr s) Idle); try congruence; rewrite ?FREE; eauto;
      try (match type of KP with forall m, _ <-> Some ?k = Some m => exfalso; pose proof (proj2 (KP k) eq_refl) as X; rewrite FREE in X; discriminate X end);
      try (exfalso; cbn in KP; match type of KP with context [Some ?k = Some _] => pose proof (proj2 (KP k) eq_refl) as X; rewrite FREE in X; discriminate X end).
Qed.

(* a state with all threads idle: the problems inside are exactly those in the queues and the slot *)
Definition idle (s : qst) : Prop := forall i, th s i = Idle.

Lemma idle_forall s : idle s -> Forall (fun t => t = Idle) (q_thr s).
Proof.
  intros D. apply Forall_forall. intros t IN. apply (In_nth _ _ Idle) in IN as [k [_ E]]. specialize (D k). unfold th in D. congruence.
Qed.
Lemma idle_hands s : idle s -> flat_map hands (q_thr s) = [].
Proof. intros D. apply idle_forall in D. induction D as [|t l -> _ IH]; cbn; auto. Qed.
Lemma idle_pend s m : idle s -> list_sum (map (pend m) (q_thr s)) = 0.
Proof. intros D. apply idle_forall in D. induction D as [|t l -> _ IH]; cbn; auto. Qed.

Lemma list_sum_len (a : list nat) : forall b : list (list prob), length a = length b -> (forall m, m < length b -> nth m a 0 = length (nth m b [])) ->
  list_sum a = length (flat_map (fun l => l) b).
Proof.
  induction a as [|x a IH]; intros [|y b] L H; try discriminate L; auto. cbn [list_sum fold_right flat_map]. rewrite app_length.
  pose proof (H 0 ltac:(cbn; lia)) as H0. cbn in H0. subst x. f_equal. apply IH; [cbn in L; lia|]. intros m M. apply (H (S m)). cbn. lia.
Qed.

Lemma idle_size s : qinv s -> idle s -> q_have s = match q_send s with Some _ => true | None => false end ->
  q_size s = length (flat_map (fun l => l) (q_pq s)) + length (olist (q_send s)).
Proof.
  intros I D HS. unfold q_size. rewrite (list_sum_len (q_sz s) (q_pq s)).
  - rewrite HS. destruct (q_send s); reflexivity.
  - destruct (i_len _ I) as [A [B _]]. congruence.
  - intros m M. rewrite (i_size _ I m) by (rewrite <- (proj1 (i_len _ I)); auto). rewrite (idle_pend s m D). lia.
Qed.
End Step.
