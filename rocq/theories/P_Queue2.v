(* P_Queue2.v - more about M_Queue: the slot, one adder at a time, ordered adds, draining *)
From Verif Require Export P_Queue.
From Coq Require Import Permutation Lia Sorted.

Definition putting (t : tst) : bool := match t with AWeight _ _ | AHave _ => true | _ => false end.
Definition adding (t : tst) : bool :=
  match t with
  | ALock _ _ | ACheck _ _ | ASend _ _ | AStore _ _ | AWeight _ _ | AHave _ | AUnPop _ | AUnSend
  | BSize _ _ | BWeight _ _ | BLock _ _ | BSwap _ _ | BWt _ _ | BUn1 _ | BUn2 _ | BUnN _ _ | BPush _ _ | BUnPop _ => true
  | _ => false
  end.
Definition early (t : tst) : bool := match t with ASend _ _ | AStore _ _ | AWeight _ _ | AHave _ => true | _ => false end.
(* at most one thread is inside addProblem *)
Definition one_adder (s : qst) : Prop := forall i j, adding (th s i) = true -> adding (th s j) = true -> i = j.

Section More.
Context (top : list prob -> option (prob * list prob)) (TOK : top_ok top).

Definition slot_inv (s : qst) : Prop := q_send s <> None -> q_have s = false -> exists i, putting (th s i) = true.

Lemma slot_step i c s s' : qinv s -> slot_inv s -> qstep top i c s = Some s' -> slot_inv s'.
Proof.
  intros I K H A B. unfold slot_inv, th in *.
  assert (R : (q_send s <> None /\ q_have s = false /\ forall t, putting (nth i (q_thr s) Idle) = true -> q_thr s' = upd (q_thr s) i t -> i < length (q_thr s) -> putting t = true) \/ (exists j, putting (nth j (q_thr s') Idle) = true) ->
     exists j, putting (nth j (q_thr s') Idle) = true).
  { intros [[A' [B' P]]|X]; auto. destruct (K A' B') as [j J].
    assert (G : exists t, q_thr s' = upd (q_thr s) i t /\ i < length (q_thr s)).
    { clear - H. qcase H T L; cbn; eauto. }
    destruct G as [t [G L]]. exists j. rewrite G. destruct (Nat.eq_dec j i) as [->|NE].
    - rewrite nth_upd_eq by auto. apply (P t); auto.
    - rewrite nth_upd_neq by congruence. auto. }
  apply R. clear R. pose proof (i_have _ I) as HV.
  qcase H T L; cbn in *; try congruence;
  try (left; split; [congruence|]; split; [congruence|]; rewrite T; intros t' P1 P2 _; try discriminate P1;
       apply (f_equal (fun l => nth i l Idle)) in P2; rewrite !nth_upd_eq in P2 by auto; subst t'; reflexivity).
  - right. exists i. rewrite nth_upd_eq by auto. reflexivity.
Qed.

Lemma slot_run sched : forall s s', qinv s -> slot_inv s -> qrun top sched s = Some s' -> q_ub s' = false -> slot_inv s'.
Proof.
  induction sched as [|[i c] sched IH]; cbn; intros s s' I K H U; [injection H as <-; assumption|].
  destruct (qstep top i c s) as [s1|] eqn:E; [|discriminate H]. pose proof (run_ub top _ _ _ H U) as U1.
  refine (IH s1 s' (qinv_step top TOK _ _ _ _ I E U1) (slot_step _ _ _ _ I K E) H U).
Qed.

Lemma slot_idle s : qinv s -> slot_inv s -> idle s -> q_have s = match q_send s with Some _ => true | None => false end.
Proof.
  intros I K D. pose proof (i_have _ I) as HV. unfold slot_inv in K. destruct (q_have s), (q_send s); auto.
  - destruct (HV eq_refl eq_refl).
  - destruct (K ltac:(discriminate) eq_refl) as [i P]. rewrite (D i) in P. discriminate P.
Qed.

(* one adder at a time *)
Definition solo_inv (s : qst) : Prop := q_lost s = [] /\ forall i, early (th s i) = true -> q_have s = false.

Lemma solo_step i c s s' : qinv s -> slot_inv s -> one_adder s -> solo_inv s -> qstep top i c s = Some s' -> solo_inv s'.
Proof.
  intros I SI ONE [LO EA] H. pose proof (i_put _ I) as PU. unfold one_adder, slot_inv, solo_inv, th in *. split.
  - pose proof (EA i) as EI. pose proof (fun j => ONE i j) as OI.
    qcase H T L; rewrite T in EI, OI; cbn in *; auto.
    destruct (q_send s) eqn:E; auto. destruct (SI ltac:(discriminate) (EI eq_refl)) as [j P]. exfalso.
    assert (i = j) as <-. { apply OI; auto. destruct (nth j (q_thr s) Idle); auto. } rewrite T in P. discriminate P.
  - intros j. pose proof (EA j) as EJ. pose proof (EA i) as EI. pose proof (ONE i j) as OI.
    qcase H T L; rewrite T in EI, OI; thr_split j i; cbn in *; auto; try discriminate; try (intros X; specialize (EJ X); congruence).
    intros X. exfalso. specialize (OI eq_refl). destruct (nth j (q_thr s) Idle); try discriminate X; specialize (OI eq_refl); congruence.
Qed.

(* the states a schedule passes through *)
Fixpoint q_states (sched : list (nat * option qcall)) (s : qst) : list qst :=
  s :: match sched with
       | [] => []
       | (i, c) :: sched' => match qstep top i c s with Some s' => q_states sched' s' | None => [] end
       end.

Lemma solo_run sched : forall s s', qinv s -> slot_inv s -> solo_inv s -> Forall one_adder (q_states sched s) ->
  qrun top sched s = Some s' -> q_ub s' = false -> solo_inv s'.
Proof.
  induction sched as [|[i c] sched IH]; cbn; intros s s' I K SO F H U; [injection H as <-; assumption|].
  destruct (qstep top i c s) as [s1|] eqn:E; [|discriminate H]. pose proof (run_ub top _ _ _ H U) as U1. inversion F as [|? ? O1 F1]; subst.
  refine (IH s1 s' (qinv_step top TOK _ _ _ _ I E U1) (slot_step _ _ _ _ I K E) _ F1 H U). eapply solo_step; eauto.
Qed.

(* problems added in the order of their lower bounds: no exchange, hence no second unlock *)
Definition by_bound (l : list prob) : Prop := StronglySorted (fun p q => (snd q <= snd p)%N) l.
Definition arg (t : tst) : option prob :=
  match t with
  | ALock p _ | ACheck p _ | ASend p _ | AStore p _ | AWeight p _ | BSize p _ | BWeight p _ | BLock p _ | BSwap p _ | BUnN p _ | BPush p _ => Some p
  | _ => None
  end.
Definition taking (t : tst) : bool := match t with PTake _ => true | _ => false end.
Definition swapped (t : tst) : bool := match t with BWt _ _ | BUn1 _ | BUn2 _ => true | _ => false end.
Definition noswap (s : qst) (t : tst) : Prop :=
  match t with
  | BLock _ _ | BSwap _ _ => q_have s = true -> exists j, taking (th s j) = true
  | BWt _ _ | BUn1 _ | BUn2 _ => False
  | AHave _ => q_wt s <> None
  | _ => True
  end.
Record ord_inv (s : qst) : Prop := mk_ord {
  o_arg : forall i p, arg (th s i) = Some p -> exists l, q_added s = p :: l;
  o_wt : forall w, q_wt s = Some w -> exists q, In q (q_added s) /\ snd q = w;
  o_take : q_have s = true -> q_wt s = None -> exists j, taking (th s j) = true;
  o_sw : forall i, noswap s (th s i)
}.

Lemma ub_step i c s s' : qinv s -> qstep top i c s = Some s' -> swapped (th s i) = false -> q_ub s' = q_ub s.
Proof.
  intros I H SW. pose proof (i_sm _ I i) as KS. pose proof (fun m => i_pm _ I i m) as KP. unfold th in *.
  qcase H T L; rewrite T in *; cbn in *; auto; try discriminate SW; exfalso;
  try (match goal with E : owns _ (q_sm s) = false |- _ => rewrite (proj2 (owns_ok _ _) (proj2 KS eq_refl)) in E; discriminate E end);
  match goal with E : owns _ (nth ?m _ _) = false |- _ => rewrite (proj2 (owns_ok _ _) (proj2 (KP m) eq_refl)) in E; discriminate E end.
Qed.

Lemma added_step i c s s' : qstep top i c s = Some s' -> q_added s' = q_added s \/ exists p m, c = Some (CAdd p m) /\ q_added s' = p :: q_added s /\ th s i = Idle /\ q_thr s' = upd (q_thr s) i (ALock p m).
Proof. intros H. unfold th. qcase H T L; cbn; auto. right. exists p, m. auto. Qed.

Lemma taking_step i c s s' j : qstep top i c s = Some s' -> taking (th s j) = true -> taking (th s' j) = true \/ (j = i /\ q_have s' = false).
Proof.
  intros H. unfold th. intros P. destruct (Nat.eq_dec j i) as [->|NE].
  - qcase H T L; rewrite T in P; try discriminate P. right. auto.
  - left. qcase H T L; cbn; rewrite nth_upd_neq by congruence; auto.
Qed.

Lemma ord_step i c s s' : qinv s -> one_adder s -> one_adder s' -> ord_inv s -> by_bound (q_added s') -> qstep top i c s = Some s' -> ord_inv s'.
Proof.
  intros I ONE ONE' O SO H. pose proof (taking_step i c s s') as TS. constructor.
  - intros j p A. pose proof (o_arg _ O) as OA. pose proof (ONE' i j) as O1. unfold th in *.
    assert (AJ : adding (nth j (q_thr s') Idle) = true) by (destruct (nth j (q_thr s') Idle); try discriminate A; auto).
    pose proof (OA j) as OJ. pose proof (OA i) as OI.
    qcase H T L; rewrite T in OI; cbn in *; destruct (Nat.eq_dec j i) as [->|NE];
    rewrite ?nth_upd_eq in * by auto; rewrite ?(nth_upd_neq (q_thr s)) in A by congruence; cbn in *; eauto; try discriminate A; try (injection A as <-; eauto).
    + exfalso. apply NE. symmetry. apply O1; auto.
  - intros w W. pose proof (o_wt _ O) as OW. pose proof (o_arg _ O i) as OI. unfold th in *.
    qcase H T L; rewrite T in OI; cbn in *; eauto; try discriminate W.
    + destruct (OW w W) as [q9 [Q1 Q2]]. eauto.
    + injection W as <-. destruct (OI p eq_refl) as [l El]. rewrite El. exists p. cbn. auto.
    + injection W as <-. pose proof (o_sw _ O i) as SW. unfold th in SW. rewrite T in SW. destruct SW.
  - intros HV WT. pose proof (o_take _ O) as OT. pose proof (o_sw _ O i) as SW.
    assert (D : (q_have s = true /\ q_wt s = None) \/ exists j, taking (th s' j) = true).
    { unfold th in *. qcase H T L; rewrite T in SW; cbn in *; auto; try discriminate WT; try congruence; try (destruct (SW WT)).
      right. exists i. rewrite nth_upd_eq by auto. reflexivity. }
    destruct D as [[A B]|D]; auto. destruct (OT A B) as [j J]. destruct (TS j H J) as [X|[_ X]]; [eauto|congruence].
  - intros j. pose proof (o_sw _ O j) as SJ. pose proof (o_sw _ O i) as SW. pose proof (ONE' i j) as O1.
    assert (KEEP : q_have s' = true -> (q_have s = true -> exists k, taking (th s k) = true) -> q_have s = true -> exists k, taking (th s' k) = true).
    { intros A B C. destruct (B C) as [k K]. destruct (TS k H K) as [X|[_ X]]; [eauto|congruence]. }
    assert (HAVE : q_have s' = true -> q_have s = true \/ exists m, th s i = AHave m).
    { clear - H. unfold th. intros X. qcase H T L; cbn in *; eauto; congruence. }
    assert (WT0 : q_wt s <> None -> q_wt s' = None -> exists l, th s i = PWt l).
    { clear - H. unfold th. intros X Y. qcase H T L; cbn in *; eauto; congruence. }
    destruct (Nat.eq_dec j i) as [->|NE].
    + (* the moving thread *)
      pose proof (o_take _ O) as OT. pose proof (o_arg _ O i) as OA. pose proof (o_wt _ O) as OW.
      pose proof (i_sm _ I) as SM. pose proof (sm_uniq s i) as UN.
      clear O1 WT0. unfold th in *.
      qcase H T L; rewrite T in *; cbn [q_thr goto set_pq set_have set_send set_wt set_pm set_sm set_ub log_add log_drop log_lost] in *;
      rewrite nth_upd_eq by auto; cbn in *; auto; try congruence; try (destruct SW; fail);
      try (destruct (q_have s); cbn; auto; fail).
      * (* BWeight to BLock *)
        intros A. apply KEEP; auto. intros _. apply OT; auto. destruct (q_wt s) as [w|] eqn:W; auto. exfalso. cbn in E.
        destruct (OW w eq_refl) as [q [Q1 Q2]]. destruct (OA p eq_refl) as [l El]. rewrite El in *.
        apply N.ltb_lt in E. inversion SO as [|? ? _ F]; subst.
        destruct Q1 as [<-|Q1]; [lia|]. rewrite Forall_forall in F. specialize (F q Q1). lia.
      * exfalso. destruct (SW E) as [k K]. unfold th in K. assert (i = k) as <-. { apply (UN k I); [reflexivity|]. destruct (nth k (q_thr s) Idle); cbn in K |- *; congruence. }
        rewrite T in K. discriminate K.
    + assert (TJ : th s' j = th s j). { clear - H NE. unfold th. qcase H T L; cbn; rewrite nth_upd_neq by congruence; auto. }
      rewrite TJ in *. pose proof (sm_uniq s i j I) as UN. clear ONE'.
      destruct (th s j) eqn:TT; cbn in *; auto.
      * intros X. destruct (q_wt s) eqn:W; auto. destruct (WT0 ltac:(discriminate) X) as [l Tl]. rewrite Tl in UN. cbn in UN. specialize (UN eq_refl eq_refl). congruence.
      * intros A. destruct (HAVE A) as [B|[k Tk]]; [apply KEEP; auto|]. exfalso. apply NE. symmetry. apply ONE; [rewrite Tk|rewrite TT]; reflexivity.
      * intros A. destruct (HAVE A) as [B|[k Tk]]; [apply KEEP; auto|]. exfalso. apply NE. symmetry. apply ONE; [rewrite Tk|rewrite TT]; reflexivity.
Qed.

Lemma by_bound_app a b : by_bound (a ++ b) -> by_bound b.
Proof. induction a as [|x a IH]; cbn; auto. intros S0. apply IH. inversion S0; auto. Qed.

Lemma added_run sched : forall s s', qrun top sched s = Some s' -> exists l, q_added s' = l ++ q_added s.
Proof.
  induction sched as [|[i c] sched IH]; cbn; intros s s' H; [injection H as <-; exists []; reflexivity|].
  destruct (qstep top i c s) as [s1|] eqn:E; [|discriminate H]. destruct (IH _ _ H) as [l El].
  destruct (added_step _ _ _ _ E) as [A|[p [m [_ [A _]]]]]; rewrite A in El; [eauto|].
  exists (l ++ [p]). rewrite <- app_assoc. exact El.
Qed.

Lemma states_head sched s : In s (q_states sched s).
Proof. destruct sched as [|[? ?] ?]; left; reflexivity. Qed.

Lemma ord_run sched : forall s s', qinv s -> q_ub s = false -> ord_inv s -> Forall one_adder (q_states sched s) ->
  qrun top sched s = Some s' -> by_bound (q_added s') -> q_ub s' = false.
Proof.
  induction sched as [|[i c] sched IH]; intros s s' I U O F H B; [cbn in H; injection H as <-; assumption|].
  cbn [qrun q_states] in H, F. destruct (qstep top i c s) as [s1|] eqn:E; [|discriminate H].
  inversion F as [|? ? O1 F1]; subst.
  assert (U1 : q_ub s1 = false).
  { rewrite (ub_step _ _ _ _ I E); auto. pose proof (o_sw _ O i) as SW. destruct (th s i); auto; destruct SW. }
  assert (B1 : by_bound (q_added s1)). { destruct (added_run _ _ _ H) as [l El]. rewrite El in B. eapply by_bound_app; eauto. }
  refine (IH s1 s' (qinv_step top TOK _ _ _ _ I E U1) U1 _ F1 H B).
  refine (ord_step i c s s1 I O1 _ O B1 E). rewrite Forall_forall in F1. apply F1. apply states_head.
Qed.

Lemma th_init nt i : th (q_init nt) i = Idle.
Proof. unfold th. cbn. apply nth_repeat_same. Qed.

Lemma ord_init nt : ord_inv (q_init nt).
Proof. constructor; intros *; rewrite ?th_init; cbn; try discriminate; auto. Qed.
Lemma slot_init nt : slot_inv (q_init nt).
Proof. intros A. destruct A; reflexivity. Qed.
Lemma solo_init nt : solo_inv (q_init nt).
Proof. split; [reflexivity|]. intros i. rewrite th_init. discriminate. Qed.

(* draining by one thread when the others are idle *)
Definition rank (t : tst) : nat :=
  match t with PLock _ _ => 8 | PCheck _ _ => 7 | PSend _ => 6 | PHave _ => 5 | PWt _ => 4 | PTake _ => 3 | PUnSend _ _ => 2 | PUnPop _ _ => 1 | _ => 0 end.
Definition sure (s : qst) (t : tst) : Prop :=
  match t with
  | PLock l false | PCheck l false => nth l (q_pq s) [] <> [] \/ q_have s = true
  | PSend _ | PHave _ => q_have s = true
  | PWt _ | PTake _ => True
  | PUnSend _ c | PUnPop _ c => c <> None
  | _ => False
  end.
Definition only0 (s : qst) : Prop := forall j, j <> 0 -> th s j = Idle.

Lemma pull_step s : qinv s -> q_ub s = false -> only0 s -> sure s (th s 0) ->
  exists s', qstep top 0 None s = Some s' /\ qinv s' /\ q_ub s' = false /\ only0 s' /\ q_added s' = q_added s /\ q_drop s' = q_drop s /\ q_lost s' = q_lost s /\
    length (q_thr s') = length (q_thr s) /\
    ((sure s' (th s' 0) /\ rank (th s' 0) < rank (th s 0) /\ q_ret s' = q_ret s) \/ (th s' 0 = Idle /\ length (q_ret s') = S (length (q_ret s)))).
Proof.
  intros I U ON SU.
  assert (NI : th s 0 <> Idle) by (intros X; rewrite X in SU; destruct SU).
  destruct (progress top 0 s I NI) as [j [s' H]].
  assert (j = 0) as ->.
  { destruct (Nat.eq_dec j 0) as [|NE]; auto. exfalso. specialize (ON j NE). unfold qstep in H. unfold th in ON.
    destruct (nth_error (q_thr s) j) eqn:E; [|discriminate H]. apply (nth_error_nth _ _ Idle) in E. rewrite E in ON. subst t. discriminate H. }
  exists s'. split; auto.
  assert (U' : q_ub s' = false). { rewrite (ub_step _ _ _ _ I H); auto. destruct (th s 0); auto; destruct SU. }
  pose proof (qinv_step top TOK _ _ _ _ I H U') as I'. split; auto. split; auto.
  pose proof (step_len top _ _ _ _ H) as LN.
  assert (ON' : only0 s').
  { intros j NE. rewrite <- (ON j NE). clear - H NE. unfold th. qcase H T L; cbn; rewrite nth_upd_neq by congruence; auto. }
  split; auto. pose proof (i_have _ I) as HV. pose proof (i_take _ I 0) as TK. unfold th in *.
  pose proof TOK as TK'.
  clear I I' LN ON ON'. qcase H T L; rewrite T in *; cbn in SU; try (destruct SU; fail);
  cbn [q_pq q_sz q_have q_send q_wt q_pm q_sm q_thr q_ub q_null q_added q_ret q_drop q_lost goto set_pq set_have set_send set_wt set_pm set_sm set_ub log_add log_drop log_lost];
  rewrite ?nth_upd_eq by auto; rewrite ?upd_length; repeat (split; [reflexivity|]); try (cbn in U'; discriminate U'); try congruence;
  try (left; cbn; repeat split; auto; try lia; try congruence; fail);
  try (right; cbn; auto; fail).
  left. destruct sd; [destruct SU|]. cbn. repeat split; auto; try lia. pose proof (TK' (nth l (q_pq s) [])) as X. rewrite E0 in X. destruct SU; congruence.
Qed.

Lemma pull_done n : forall s, rank (th s 0) <= n -> qinv s -> q_ub s = false -> only0 s -> sure s (th s 0) ->
  exists sched s', qrun top sched s = Some s' /\ Forall (fun x => fst x = 0 /\ snd x = None) sched /\ qinv s' /\ q_ub s' = false /\ idle s' /\
    q_added s' = q_added s /\ q_drop s' = q_drop s /\ q_lost s' = q_lost s /\ length (q_thr s') = length (q_thr s) /\ length (q_ret s') = S (length (q_ret s)).
Proof.
  induction n as [|n IH]; intros s R I U ON SU.
  - exfalso. destruct (th s 0); cbn in R; try lia; destruct SU.
  - destruct (pull_step s I U ON SU) as [s1 [H [I1 [U1 [ON1 [A [D [LO [LT [[SU1 [R1 RE]]|[ID RE]]]]]]]]]]].
    + destruct (IH s1 ltac:(lia) I1 U1 ON1 SU1) as [sched [s' [RUN [F [I' [U' [IDL [A' [D' [LO' [LT' RE']]]]]]]]]]].
      exists ((0, None) :: sched), s'. cbn [qrun]. rewrite H. split; [exact RUN|]. split; [constructor; auto|].
      split; [exact I'|]. split; [exact U'|]. split; [exact IDL|]. split; [congruence|]. split; [congruence|]. split; [congruence|]. split; [congruence|].
      rewrite RE', RE. reflexivity.
    + exists [(0, None)], s1. cbn [qrun]. rewrite H. split; [reflexivity|]. split; [repeat constructor|]. split; [exact I1|]. split; [exact U1|].
      split. { intros j. destruct (Nat.eq_dec j 0) as [->|NE]; auto. } split; [exact A|]. split; [exact D|]. split; [exact LO|]. split; [exact LT|exact RE].
Qed.

Lemma run_app a : forall b s, qrun top (a ++ b) s = match qrun top a s with Some s' => qrun top b s' | None => None end.
Proof. induction a as [|[i c] a IH]; cbn; intros; auto. destruct (qstep top i c s); auto. Qed.

(* calls of pullProblem by thread 0 and steps of thread 0 *)
Definition pulls (sched : list (nat * option qcall)) : Prop :=
  Forall (fun x => fst x = 0 /\ (snd x = None \/ exists l, snd x = Some (CPull l false))) sched.

Definition inside (s : qst) : nat := length (flat_map (fun l => l) (q_pq s)) + length (olist (q_send s)).

Lemma idle_perm s : qinv s -> idle s ->
  Permutation (q_added s) (flat_map (fun l => l) (q_pq s) ++ olist (q_send s) ++ q_ret s ++ map fst (q_drop s) ++ q_lost s).
Proof.
  intros I D. apply (Permutation_count_occ prob_dec). intros x. pose proof (i_cons _ I x) as C. unfold held in C. rewrite (idle_hands s D) in C. exact C.
Qed.

Lemma some_nonempty (b : list (list prob)) : flat_map (fun l => l) b <> [] -> exists l, l < length b /\ nth l b [] <> [].
Proof.
  induction b as [|x b IH]; cbn; intros H; [congruence|]. destruct x as [|y x].
  - destruct (IH H) as [l [L E]]. exists (S l). split; [lia|exact E].
  - exists 0. split; [lia|discriminate].
Qed.

Lemma drain n : forall s, inside s <= n -> qinv s -> slot_inv s -> q_ub s = false -> idle s -> 0 < length (q_thr s) ->
  exists sched s', pulls sched /\ qrun top sched s = Some s' /\ idle s' /\ q_ub s' = false /\ qinv s' /\
    q_added s' = q_added s /\ q_drop s' = q_drop s /\ q_lost s' = q_lost s /\ inside s' = 0.
Proof.
  induction n as [|n IH]; intros s LE I SI U ID NT.
  - exists [], s. repeat (split; [first [reflexivity|assumption|constructor]|]). lia.
  - destruct (Nat.eq_dec (inside s) 0) as [Z|NZ]; [exists [], s; repeat (split; [first [reflexivity|assumption|constructor]|]); exact Z|].
    assert (X : exists l, l < length (q_thr s) /\ (nth l (q_pq s) [] <> [] \/ q_have s = true)).
    { unfold inside in NZ. destruct (flat_map (fun l => l) (q_pq s)) eqn:E.
      - exists 0. split; auto. right. rewrite (slot_idle s I SI ID). destruct (q_send s); cbn in NZ; [reflexivity|congruence].
      - destruct (some_nonempty (q_pq s)) as [l9 [L P]]; [rewrite E; discriminate|]. exists l9. rewrite <- (proj1 (i_len _ I)). auto. }
    destruct X as [l [L SU]].
    assert (CALL : qstep top 0 (Some (CPull l false)) s = Some (goto 0 (PLock l false) s)).
    { unfold qstep. rewrite (nth_error_nth' _ Idle NT). pose proof (ID 0) as Z. unfold th in Z. rewrite Z. apply Nat.ltb_lt in L. rewrite L. reflexivity. }
    set (s1 := goto 0 (PLock l false) s) in *.
    assert (T1 : th s1 0 = PLock l false) by (unfold th; cbn; apply nth_upd_eq; auto).
    assert (I1 : qinv s1) by (eapply qinv_step; eauto).
    destruct (pull_done 8 s1) as [sc [s2 [R2 [F2 [I2 [U2 [ID2 [A2 [D2 [L2 [N2 E2]]]]]]]]]]]; auto.
    + rewrite T1. cbn. lia.
    + intros j NE. unfold th. cbn. rewrite nth_upd_neq by auto. apply ID.
    + rewrite T1. exact SU.
    + assert (S2 : slot_inv s2).
      { exact (slot_run sc s1 s2 I1 (slot_step _ _ _ _ I SI CALL) R2 U2). }
      assert (IN2 : inside s2 < inside s).
      { pose proof (Permutation_length (idle_perm s I ID)) as P1. pose proof (Permutation_length (idle_perm s2 I2 ID2)) as P2.
        rewrite !app_length, !map_length in P1, P2. unfold inside.
        assert (q_added s2 = q_added s) by (rewrite A2; reflexivity). assert (q_drop s2 = q_drop s) by (rewrite D2; reflexivity).
        assert (q_lost s2 = q_lost s) by (rewrite L2; reflexivity). assert (length (q_ret s2) = S (length (q_ret s))) by (rewrite E2; reflexivity).
        rewrite H, H0, H1 in P2. lia. }
      destruct (IH s2 ltac:(lia) I2 S2 U2 ID2) as [sd [s3 [P3 [R3 [ID3 [U3 [I3 [A3 [D3 [L3 Z3]]]]]]]]]].
      { rewrite N2. cbn. rewrite upd_length. auto. }
      exists ((0, Some (CPull l false)) :: sc ++ sd), s3. split.
      { constructor; [cbn; split; auto; right; eauto|]. apply Forall_app. split; auto.
        eapply Forall_impl; [|exact F2]. cbn. intuition. }
      split. { cbn [qrun]. rewrite CALL. fold s1. rewrite run_app, R2. exact R3. }
      split; auto. split; auto. split; auto. split; [rewrite A3, A2; reflexivity|]. split; [rewrite D3, D2; reflexivity|]. split; [rewrite L3, L2; reflexivity|exact Z3].
Qed.
End More.
