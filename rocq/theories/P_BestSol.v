(* P_BestSol.v - concurrent calls of findBestSolution: invariants of the machine of M_BestSol.v. *)
From Verif Require Import M_BestSol.

Lemma nth_error_upd {A} : forall (l : list A) i x j, nth_error (upd l i x) j = if (j =? i) && (i <? length l) then Some x else nth_error l j.
Proof.
  induction l as [|a l IH]; intros [|i] x [|j]; cbn [upd nth_error length]; auto.
  - rewrite andb_false_r. reflexivity.
  - rewrite IH. reflexivity.
Qed.
Lemma nth_error_upd_some {A} (l : list A) i x j y c : nth_error l i = Some c -> nth_error (upd l i x) j = Some y -> (j = i /\ y = x) \/ (j <> i /\ nth_error l j = Some y).
Proof.
  intros E H. rewrite nth_error_upd in H. destruct (Nat.eqb_spec j i) as [Q|Q]; cbn [andb] in H; [|auto].
  assert (L : i < length l) by (apply nth_error_Some; congruence). apply Nat.ltb_lt in L. rewrite L in H. injection H as <-. auto.
Qed.
Lemma nth_error_upd_same {A} (l : list A) i x c : nth_error l i = Some c -> nth_error (upd l i x) i = Some x.
Proof. intro E. rewrite nth_error_upd, Nat.eqb_refl. assert (L : i < length l) by (apply nth_error_Some; congruence). apply Nat.ltb_lt in L. rewrite L. reflexivity. Qed.
Lemma nth_error_upd_other {A} (l : list A) i x j : j <> i -> nth_error (upd l i x) j = nth_error l j.
Proof. intro N. rewrite nth_error_upd. apply Nat.eqb_neq in N. rewrite N. reflexivity. Qed.
Lemma upd_firstn {A} : forall (l m : list A) i x, firstn i l = firstn i m -> nth_error m i = Some x -> i < length l -> firstn (S i) (upd l i x) = firstn (S i) m.
Proof.
  induction l as [|a l IH]; intros m i x E H L; [cbn in L; lia|]. destruct i as [|i], m as [|b m]; cbn in H; try discriminate H.
  - injection H as <-. reflexivity.
  - cbn [upd]. cbn [firstn] in E. injection E as <- E. cbn in L. change (a :: firstn (S i) (upd l i x) = a :: firstn (S i) m). f_equal. apply IH; auto. lia.
Qed.

Section BestSol.
Context (n k0 : nat) (gub0 : N) (Q : list nat -> Prop) (C : list nat -> N) (value : list nat -> option N).

(** what the events may do: calls are made with solutions, improvement keeps them *)
Definition event_ok (e : fevent) : Prop :=
  match e with
  | Spawn sol k => Q sol /\ length sol = n /\ forall v, value sol = Some v -> v = C sol
  | Go j imp => forall sol, Q sol -> length sol = n -> Q (fst (imp sol)) /\ length (fst (imp sol)) = n /\ (C (fst (imp sol)) + snd (imp sol) <= C sol)%N
  end.

Definition crit (p : pc) : bool := match p with Copy1 _ | Init1 | Unlock1 | Copy2 _ | Init2 | Unlock2 => true | _ => false end.
Definition late (p : pc) : bool := match p with Check2 _ | Check3 _ | SetB _ | Lock2 | Copy2 _ | Init2 | Unlock2 | Done false => true | _ => false end.
Definition gate_pc (p : pc) : bool := match p with Gate | Check | SetV | Lock1 | Copy1 _ | Init1 | Unlock1 | Improve => true | _ => false end.
Definition bound (p : pc) : option N := match p with ReadT b | SetT b | SetL b | Check2 b | Check3 b | SetB b => Some b | _ => None end.

Definition good_call (c : fcall) : Prop := Q (c_sol c) /\ length (c_sol c) = n /\ (gate_pc (c_pc c) = true -> (C (c_sol c) <= c_v c)%N) /\
  forall b, bound (c_pc c) = Some b -> (C (c_sol c) <= b)%N.
Definition good_best (s : fstate) (c : fcall) : Prop :=
  match c_pc c with
  | Copy1 i | Copy2 i => i <= n /\ firstn i (s_best s) = firstn i (c_sol c)
  | Init1 | Init2 => s_best s = c_sol c
  | Unlock1 | Unlock2 => s_best s = c_sol c /\ s_init s = true
  | _ => True
  end.

Record inv (s : fstate) : Prop := {
  i_calls : forall j c, nth_error (s_calls s) j = Some c -> good_call c;
  i_gub : s_gub s = gub0 \/ exists sol, Q sol /\ length sol = n /\ (C sol <= s_gub s)%N;
  i_lock : forall j, s_lock s = Some j <-> exists c, nth_error (s_calls s) j = Some c /\ crit (c_pc c) = true;
  i_best : length (s_best s) = n;
  i_crit : forall j c, nth_error (s_calls s) j = Some c -> good_best s c;
  i_whole : s_lock s = None -> s_init s = true -> Q (s_best s);
  i_late : forall j c, nth_error (s_calls s) j = Some c -> c_pc c = Done false -> s_init s = true;
  i_ls : forall k b, nth_error (s_ls s) k = Some (Some b) -> exists j c, nth_error (s_calls s) j = Some c /\ late (c_pc c) = true;
  i_early : forall j c, nth_error (s_calls s) j = Some c -> c_pc c = Done true -> exists k b, nth_error (s_ls s) k = Some (Some b)
}.

Lemma nth_error_repeat_none {A} (x : A) : forall m k y, nth_error (repeat x m) k = Some y -> y = x.
Proof. intros m k y H. apply nth_error_In in H. apply repeat_spec in H. exact H. Qed.

Lemma inv_start : inv (fb_start n k0 gub0).
Proof.
  constructor; cbn [fb_start s_calls s_gub s_lock s_best s_init s_ls]; try (intros [|j] c H; discriminate H).
  - left. reflexivity.
  - intro j. split; [discriminate|]. intros (c & H & _). destruct j; discriminate H.
  - apply repeat_length.
  - intros _ H. discriminate H.
  - intros k b H. apply nth_error_repeat_none in H. discriminate H.
Qed.

(** a step of call j that changes the call to c' and the shared variables to those of s' *)
Lemma step_inv s s' j c c' : inv s -> nth_error (s_calls s) j = Some c -> s_calls s' = upd (s_calls s) j c' ->
  good_call c' -> (s_gub s' = s_gub s \/ exists sol, Q sol /\ length sol = n /\ (C sol <= s_gub s')%N) ->
  (s_lock s' = s_lock s /\ crit (c_pc c') = crit (c_pc c) \/ s_lock s = None /\ s_lock s' = Some j /\ crit (c_pc c') = true \/ crit (c_pc c) = true /\ s_lock s' = None /\ crit (c_pc c') = false) ->
  length (s_best s') = n -> (s_best s' = s_best s \/ s_lock s = Some j /\ s_lock s' = Some j) -> (s_init s = true -> s_init s' = true) -> (s_init s' = s_init s \/ crit (c_pc c') = true) ->
  good_best s' c' -> (crit (c_pc c) = true -> crit (c_pc c') = false -> Q (s_best s')) ->
  (late (c_pc c) = true -> late (c_pc c') = true) -> (c_pc c' = Done false -> s_init s' = true) ->
  (forall k b, nth_error (s_ls s') k = Some (Some b) -> late (c_pc c') = true \/ exists b', nth_error (s_ls s) k = Some (Some b')) ->
  (forall k b, nth_error (s_ls s) k = Some (Some b) -> exists b', nth_error (s_ls s') k = Some (Some b')) ->
  (c_pc c' = Done true -> exists k b, nth_error (s_ls s') k = Some (Some b)) -> (c_pc c <> Done true) -> inv s'.
Proof.
  intros [I1 I2 I3 I4 I5 I6 I7 I8 I9] E EC G GU LK LB BE IN IC GB CW LM LI L1 L2 LE NE. constructor; rewrite ?EC.
  - intros j1 c1 H. destruct (nth_error_upd_some _ _ _ _ _ _ E H) as [[-> ->]|[_ H']]; eauto.
  - destruct GU as [->|GU]; auto.
  - intro j1. destruct (Nat.eq_dec j1 j) as [->|NJ].
    + assert (X : (exists c1, nth_error (upd (s_calls s) j c') j = Some c1 /\ crit (c_pc c1) = true) <-> crit (c_pc c') = true).
      { rewrite (nth_error_upd_same _ _ _ _ E). split; [intros (c1 & H & H'); congruence|intro H; eauto]. }
      rewrite X. destruct LK as [[-> ->]|[(A & -> & B)|(A & -> & B)]].
      * rewrite I3. split; [intros (c1 & H & H'); congruence|intro H; eauto].
      * split; auto.
      * rewrite B. split; discriminate.
    + rewrite (nth_error_upd_other _ _ _ _ NJ). rewrite <- I3. destruct LK as [[-> _]|[(A & -> & B)|(A & -> & B)]]; [reflexivity| |].
      * rewrite A. split; [intro H; congruence|discriminate].
      * assert (X : s_lock s = Some j) by (apply I3; eauto). rewrite X. split; [discriminate|congruence].
  - exact LB.
  - intros j1 c1 H. destruct (nth_error_upd_some _ _ _ _ _ _ E H) as [[-> ->]|[NJ H']]; [exact GB|]. specialize (I5 _ _ H'). unfold good_best in *.
    destruct BE as [->|[BE _]].
    + destruct (c_pc c1); auto; destruct I5; auto.
    + assert (X : crit (c_pc c1) = false). { destruct (crit (c_pc c1)) eqn:X; [|auto]. assert (Y : s_lock s = Some j1) by (apply I3; eauto). congruence. }
      destruct (c_pc c1); try discriminate X; auto.
  - intros LN IT. destruct BE as [BE|[_ BE]]; [|congruence]. rewrite BE in *. destruct LK as [[LK1 LK2]|[(A & LK1 & B)|(A & LK1 & B)]]; [|congruence|auto].
    rewrite LK1 in LN. destruct IC as [IC|IC]; [rewrite IC in IT; auto|]. exfalso. rewrite LK2 in IC. assert (Y : s_lock s = Some j) by (apply I3; eauto). congruence.
  - intros j1 c1 H D. destruct (nth_error_upd_some _ _ _ _ _ _ E H) as [[-> ->]|[NJ H']]; eauto.
  - intros k b H. destruct (L1 k b H) as [L|[b' H']]; [exists j, c'; split; [apply (nth_error_upd_same _ _ _ _ E)|exact L]|].
    destruct (I8 k b' H') as (j1 & c1 & X & Y). destruct (Nat.eq_dec j1 j) as [->|NJ].
    + exists j, c'. split; [apply (nth_error_upd_same _ _ _ _ E)|]. apply LM. congruence.
    + exists j1, c1. rewrite (nth_error_upd_other _ _ _ _ NJ). auto.
  - intros j1 c1 H D. destruct (nth_error_upd_some _ _ _ _ _ _ E H) as [[-> ->]|[NJ H']]; [auto|]. destruct (I9 _ _ H' D) as (k & b & X). destruct (L2 k b X) as [b' Y]. eauto.
Qed.

Lemma copy_inv s s' j c i next stop : inv s -> nth_error (s_calls s) j = Some c -> crit (c_pc c) = true -> crit next = true -> crit stop = true -> c_pc c <> Done true ->
  good_best s (mk_fcall (c_sol c) (c_k c) (c_v c) (Copy1 i)) -> (late (c_pc c) = true -> late next = true /\ late stop = true) ->
  (gate_pc next = true -> gate_pc (c_pc c) = true) -> (gate_pc stop = true -> gate_pc (c_pc c) = true) -> bound next = None -> bound stop = None ->
  (forall st c1, good_best st (mk_fcall (c_sol c1) (c_k c1) (c_v c1) next) <-> (S i <= n /\ firstn (S i) (s_best st) = firstn (S i) (c_sol c1))) ->
  (forall st c1, good_best st (mk_fcall (c_sol c1) (c_k c1) (c_v c1) stop) <-> s_best st = c_sol c1) ->
  copy_cell s j c i next stop = Some s' -> inv s'.
Proof.
  intros I E CR CN CS ND GB LT GN GS BN BS GBN GBS H. unfold copy_cell in H. pose proof (i_calls s I j c E) as (G1 & G2 & G3 & G4). pose proof (i_best s I) as LB.
  assert (LJ : s_lock s = Some j) by (apply (i_lock s I); eauto). cbn in GB. destruct GB as [Li FE].
  destruct (nth_error (c_sol c) i) as [x|] eqn:X.
  - destruct (i <? length (s_best s)) eqn:LT'; [|discriminate H]. apply Nat.ltb_lt in LT'. injection H as <-.
    eapply (step_inv s _ j c (mk_fcall (c_sol c) (c_k c) (c_v c) next) I E); cbn [at_pc s_calls s_gub s_lock s_best s_init s_ls c_pc]; try reflexivity; auto.
    + split; [exact G1|]. split; [exact G2|]. split; [intro Y; apply G3, GN, Y|]. cbn [c_pc]. rewrite BN. discriminate.
    + left. split; [reflexivity|]. congruence.
    + rewrite upd_length. exact LB.
    + apply GBN. cbn [s_best]. split; [lia|]. apply upd_firstn; auto.
    + intros _ Y. congruence.
    + intro Y. apply LT, Y.
    + intro Y. rewrite Y in CN. discriminate CN.
    + eauto.
    + eauto.
    + intro Y. rewrite Y in CN. discriminate CN.
  - injection H as <-. apply nth_error_None in X.
    eapply (step_inv s _ j c (mk_fcall (c_sol c) (c_k c) (c_v c) stop) I E); cbn [at_pc s_calls s_gub s_lock s_best s_init s_ls c_pc]; try reflexivity; auto.
    + split; [exact G1|]. split; [exact G2|]. split; [intro Y; apply G3, GS, Y|]. cbn [c_pc]. rewrite BS. discriminate.
    + left. split; [reflexivity|]. congruence.
    + apply GBS. cbn [at_pc s_best]. rewrite !firstn_all2 in FE by lia. exact FE.
    + intros _ Y. congruence.
    + intro Y. apply LT, Y.
    + intro Y. rewrite Y in CS. discriminate CS.
    + eauto.
    + eauto.
    + intro Y. rewrite Y in CS. discriminate CS.
Qed.

Lemma go_inv s s' j imp : inv s -> event_ok (Go j imp) -> call_step imp s j = Some s' -> inv s'.
Proof.
  intros I EO H. unfold call_step in H. destruct (nth_error (s_calls s) j) as [c|] eqn:E; [|discriminate H].
  pose proof (i_calls s I j c E) as (G1 & G2 & G3 & G4). pose proof (i_crit s I j c E) as GB. pose proof (i_best s I) as LB. pose proof (i_late s I j c E) as IL.
  assert (LJ : crit (c_pc c) = true -> s_lock s = Some j) by (intro; apply (i_lock s I); eauto).
  assert (STD : forall p, good_call (mk_fcall (c_sol c) (c_k c) (c_v c) p) <-> ((gate_pc p = true -> (C (c_sol c) <= c_v c)%N) /\ forall b, bound p = Some b -> (C (c_sol c) <= b)%N)).
  { intro p. unfold good_call. cbn. split; [intros (A & B & D & F); auto|intros [A B]; auto]. }
  Ltac std I E PC STD p := match type of E with nth_error (s_calls ?s) ?j = Some ?c =>
    eapply (step_inv s _ j c (mk_fcall (c_sol c) (c_k c) (c_v c) p) I E); cbn [at_pc s_calls s_gub s_lock s_best s_init s_ls c_pc crit late]; rewrite ?PC; cbn [crit late];
    try reflexivity; try discriminate; auto; try (left; split; reflexivity); try (apply STD; cbn [gate_pc bound]; split; [try discriminate; auto|]; intros ? ?; try discriminate; auto); eauto end.
  unfold good_best in GB. destruct (c_pc c) eqn:PC; cbn [gate_pc bound] in G3, G4.
  - destruct (nth_error (s_ls s) (c_k c)) as [o|] eqn:O; [|discriminate H]. injection H as <-. destruct (leb_inf (c_v c) o) eqn:LO; [std I E PC STD Check|].
    destruct o as [b|]; [|discriminate LO]. std I E PC STD (Done true).
  - injection H as <-. destruct (c_v c <? s_gub s)%N; [std I E PC STD SetV|std I E PC STD Improve].
  - injection H as <-. std I E PC STD Lock1. right. eauto.
  - destruct (s_lock s) eqn:LK; [discriminate H|]. injection H as <-. std I E PC STD (Copy1 0). split; [lia|reflexivity].
  - apply (copy_inv s s' j c i (Copy1 (S i)) Init1 I E); rewrite ?PC; auto; try discriminate; try (exact GB); intros; reflexivity.
  - injection H as <-. std I E PC STD Unlock1. split; [exact GB|reflexivity].
  - injection H as <-. destruct GB as [GB1 GB2]. std I E PC STD Improve. intros _ _. rewrite GB1. exact G1.
  - destruct (imp (c_sol c)) as [sol' d] eqn:EI. injection H as <-. destruct (EO (c_sol c) G1 G2) as (A1 & A2 & A3). rewrite EI in A1, A2, A3. cbn [fst snd] in A1, A2, A3.
    eapply (step_inv s _ j c (mk_fcall sol' (c_k c) (c_v c) (ReadT (c_v c - d))) I E); cbn [at_pc s_calls s_gub s_lock s_best s_init s_ls c_pc crit late]; rewrite ?PC; cbn [crit late]; try reflexivity; try discriminate; auto; eauto.
    + split; [exact A1|]. split; [exact A2|]. split; [discriminate|]. cbn. intros b Y. injection Y as <-. specialize (G3 eq_refl). lia.
  - destruct (nth_error (s_tg s) (c_k c)) as [o|]; [|discriminate H]. injection H as <-. destruct (leb_inf b o); [std I E PC STD (SetT b)|std I E PC STD (Check2 b)].
  - injection H as <-. std I E PC STD (SetL b).
  - injection H as <-. std I E PC STD (Check2 b).
    intros k b1 X. rewrite nth_error_upd. destruct ((k =? c_k c) && _); eauto.
  - injection H as <-. destruct (b <? s_gub s)%N; [std I E PC STD (SetB b)|std I E PC STD (Check3 b)].
  - injection H as <-. destruct (s_init s) eqn:SI; [std I E PC STD (Done false)|std I E PC STD (SetB b)].
  - injection H as <-. std I E PC STD Lock2. right. exists (c_sol c). auto.
  - destruct (s_lock s) eqn:LK; [discriminate H|]. injection H as <-. std I E PC STD (Copy2 0). split; [lia|reflexivity].
  - apply (copy_inv s s' j c i (Copy2 (S i)) Init2 I E); rewrite ?PC; auto; try discriminate; try (exact GB); intros; reflexivity.
  - injection H as <-. std I E PC STD Unlock2. split; [exact GB|reflexivity].
  - injection H as <-. destruct GB as [GB1 GB2]. std I E PC STD (Done false). intros _ _. rewrite GB1. exact G1.
  - discriminate H.
Qed.

Lemma spawn_inv s s' sol k : inv s -> event_ok (Spawn sol k) -> fb_step value s (Spawn sol k) = Some s' -> inv s'.
Proof.
  intros [I1 I2 I3 I4 I5 I6 I7 I8 I9] (Q1 & Q2 & Q3) H. cbn [fb_step] in H. destruct (value sol) as [v|] eqn:V; [|discriminate H]. injection H as <-.
  assert (X : forall j c, nth_error (s_calls s ++ [mk_fcall sol k v Gate]) j = Some c -> nth_error (s_calls s) j = Some c \/ c = mk_fcall sol k v Gate).
  { intros j c H. destruct (Nat.lt_ge_cases j (length (s_calls s))) as [L|L]; [rewrite nth_error_app1 in H by exact L; auto|]. rewrite nth_error_app2 in H by exact L.
    destruct (j - length (s_calls s)) as [|m]; [injection H as <-; auto|destruct m; discriminate H]. }
  assert (Y : forall j c, nth_error (s_calls s) j = Some c -> nth_error (s_calls s ++ [mk_fcall sol k v Gate]) j = Some c).
  { intros j c H. rewrite nth_error_app1; [exact H|]. apply nth_error_Some. congruence. }
  constructor; cbn [s_calls s_gub s_lock s_best s_init s_ls]; auto.
  - intros j c H. destruct (X j c H) as [H'| ->]; [eauto|]. split; [exact Q1|]. split; [exact Q2|]. cbn. split; [intros _; rewrite (Q3 v eq_refl); apply N.le_refl|discriminate].
  - intro j. rewrite I3. split; [intros (c & H & H'); eauto|]. intros (c & H & H'). destruct (X j c H) as [H0| ->]; [eauto|discriminate H'].
  - intros j c H. destruct (X j c H) as [H'| ->]; [specialize (I5 _ _ H'); unfold good_best in *; destruct (c_pc c); auto|exact I].
  - intros j c H D. destruct (X j c H) as [H'| ->]; [eauto|discriminate D].
  - intros k1 b H. destruct (I8 _ _ H) as (j & c & A & B). eauto.
  - intros j c H D. destruct (X j c H) as [H'| ->]; [eauto|discriminate D].
Qed.

Theorem run_inv : forall es s s', inv s -> Forall event_ok es -> fb_run value s es = Some s' -> inv s'.
Proof.
  induction es as [|e es IH]; intros s s' I F H; cbn [fb_run] in H; [injection H as <-; exact I|]. inversion F as [|? ? F1 F2]. subst.
  destruct (fb_step value s e) as [s1|] eqn:E; [|discriminate H]. eapply IH; [|exact F2|exact H]. destruct e as [sol k|j imp]; [eapply spawn_inv; eauto|eapply go_inv; eauto].
Qed.

(** when all calls have returned the solution is recorded *)
Lemma quiet s : inv s -> (forall c, In c (s_calls s) -> exists e, c_pc c = Done e) -> s_calls s <> [] -> s_lock s = None /\ s_init s = true /\ Q (s_best s).
Proof.
  intros I D NE. assert (D' : forall j c, nth_error (s_calls s) j = Some c -> exists e, c_pc c = Done e) by (intros j c H; apply D; apply nth_error_In in H; exact H).
  assert (L : s_lock s = None). { destruct (s_lock s) as [j|] eqn:L; [|auto]. destruct (proj1 (i_lock s I j) L) as (c & H & H'). destruct (D' _ _ H) as [e X]. rewrite X in H'. discriminate H'. }
  assert (LT : forall j c, nth_error (s_calls s) j = Some c -> late (c_pc c) = true -> s_init s = true).
  { intros j c H H'. destruct (D' _ _ H) as [[|] X]; rewrite X in H'; [discriminate H'|]. apply (i_late s I j c H X). }
  assert (IN : s_init s = true).
  { destruct (s_calls s) as [|c cs] eqn:SC; [congruence|]. rewrite <- SC in *. assert (H : nth_error (s_calls s) 0 = Some c) by (rewrite SC; reflexivity).
    destruct (D' _ _ H) as [[|] X]; [|apply (i_late s I _ _ H X)]. destruct (i_early s I _ _ H X) as (k & b & Y). destruct (i_ls s I _ _ Y) as (j1 & c1 & Z & Z'). eauto. }
  split; [exact L|]. split; [exact IN|]. apply (i_whole s I L IN).
Qed.

(** ** every call returns *)
Definition mu (p : pc) : nat :=
  match p with
  | Gate => 2 * n + 18 | Check => 2 * n + 17 | SetV => 2 * n + 16 | Lock1 => 2 * n + 15 | Copy1 i => n + 14 + (n - i) | Init1 => n + 13 | Unlock1 => n + 12 | Improve => n + 11
  | ReadT _ => n + 10 | SetT _ => n + 9 | SetL _ => n + 8 | Check2 _ => n + 7 | Check3 _ => n + 6 | SetB _ => n + 5 | Lock2 => n + 4 | Copy2 i => 3 + (n - i) | Init2 => 2 | Unlock2 => 1 | Done _ => 0
  end.
Definition work (l : list fcall) : nat := list_sum (map (fun c => mu (c_pc c)) l).

Lemma list_sum_upd : forall (l : list fcall) j c c', nth_error l j = Some c -> work (upd l j c') + mu (c_pc c) = work l + mu (c_pc c').
Proof.
  unfold work. induction l as [|a l IH]; intros [|j] c c' H; cbn in H; try discriminate H; cbn [upd map list_sum fold_right].
  - injection H as <-. cbn. lia.
  - specialize (IH j c c' H). unfold list_sum in *. cbn [fold_right] in *. lia.
Qed.

Lemma go_work s s' j imp : inv s -> call_step imp s j = Some s' -> work (s_calls s') < work (s_calls s).
Proof.
  intros I H. unfold call_step in H. destruct (nth_error (s_calls s) j) as [c|] eqn:E; [|discriminate H].
  pose proof (i_calls s I j c E) as (_ & G2 & _).
  assert (ST : forall c', mu (c_pc c') < mu (c_pc c) -> work (upd (s_calls s) j c') < work (s_calls s)) by (intros c' L; pose proof (list_sum_upd _ _ _ c' E); lia).
  assert (CP : forall i next stop, copy_cell s j c i next stop = Some s' -> (i < n -> mu next < mu (c_pc c)) -> mu stop < mu (c_pc c) -> work (s_calls s') < work (s_calls s)).
  { intros i next stop X A B. unfold copy_cell in X. destruct (nth_error (c_sol c) i) as [x|] eqn:Y; [|injection X as <-; apply ST, B].
    destruct (i <? length (s_best s)); [|discriminate X]. injection X as <-. apply ST, A. rewrite <- G2. apply nth_error_Some. congruence. }
  destruct (c_pc c) eqn:PC;
    try (injection H as <-; cbn [at_pc s_calls]; apply ST; cbn [c_pc]; rewrite ?PC; try (destruct (_ <? _)%N); try destruct (s_init s); cbn [mu]; lia).
  - match type of H with context [nth_error ?a ?b] => destruct (nth_error a b) end; [|discriminate H]. injection H as <-. apply ST. cbn [c_pc]. rewrite ?PC. destruct (leb_inf _ _); cbn [mu]; lia.
  - destruct (s_lock s); [discriminate H|]. injection H as <-. apply ST. cbn [c_pc]. rewrite ?PC. cbn [mu]. lia.
  - apply (CP _ _ _ H); rewrite ?PC; cbn [mu]; lia.
  - destruct (imp _) as [sol' d]. injection H as <-. apply ST. cbn [c_pc]. rewrite ?PC. cbn [mu]. lia.
  - match type of H with context [nth_error ?a ?b] => destruct (nth_error a b) end; [|discriminate H]. injection H as <-. apply ST. cbn [c_pc]. rewrite ?PC. destruct (leb_inf _ _); cbn [mu]; lia.
  - destruct (s_lock s); [discriminate H|]. injection H as <-. apply ST. cbn [c_pc]. rewrite ?PC. cbn [mu]. lia.
  - apply (CP _ _ _ H); rewrite ?PC; cbn [mu]; lia.
  - discriminate H.
Qed.

Definition is_spawn (e : fevent) : bool := match e with Spawn _ _ => true | Go _ _ => false end.
Definition n_spawn (es : list fevent) : nat := length (filter is_spawn es).

Theorem run_work : forall es s s', inv s -> Forall event_ok es -> fb_run value s es = Some s' -> length es + work (s_calls s') <= (2 * n + 19) * n_spawn es + work (s_calls s).
Proof.
  induction es as [|e es IH]; intros s s' I F H; cbn [fb_run] in H; [injection H as <-; cbn; lia|]. inversion F as [|? ? F1 F2]. subst.
  destruct (fb_step value s e) as [s1|] eqn:E; [|discriminate H]. destruct e as [sol k|j imp].
  - pose proof (spawn_inv _ _ _ _ I F1 E) as I1. specialize (IH s1 s' I1 F2 H). cbn [fb_step] in E. destruct (value sol); [|discriminate E]. injection E as <-. cbn [s_calls] in IH.
    unfold n_spawn in *. cbn [filter is_spawn length]. unfold work in IH at 2. rewrite map_app, list_sum_app in IH. cbn [map c_pc mu list_sum fold_right] in IH. fold (work (s_calls s)) in IH. lia.
  - pose proof (go_inv _ _ _ _ I F1 E) as I1. specialize (IH s1 s' I1 F2 H). cbn [fb_step] in E. pose proof (go_work _ _ _ _ I E). unfold n_spawn in *. cbn [filter is_spawn length]. lia.
Qed.

(** ** no call waits for ever: the vectors are long enough, and the call that holds the mutex can go on *)
Definition kinv (s : fstate) : Prop := length (s_tg s) = k0 /\ length (s_ls s) = k0 /\ forall c, In c (s_calls s) -> c_k c < k0.
Definition event_k (e : fevent) : Prop := match e with Spawn _ k => k < k0 | Go _ _ => True end.

Lemma in_upd {A} : forall (l : list A) j x y, In y (upd l j x) -> y = x \/ In y l.
Proof. induction l as [|a l IH]; intros [|j] x y H; cbn in H; auto; destruct H as [H|H]; cbn; auto. destruct (IH j x y H); auto. Qed.

Lemma kinv_step s s' e : kinv s -> event_k e -> fb_step value s e = Some s' -> kinv s'.
Proof.
  intros (A & B & D) EK H. destruct e as [sol k|j imp]; cbn [fb_step] in H.
  - destruct (value sol); [|discriminate H]. injection H as <-. split; [exact A|]. split; [exact B|]. intros c X. cbn [s_calls] in X. apply in_app_or in X. destruct X as [X|[<-|[]]]; [auto|exact EK].
  - unfold call_step in H. destruct (nth_error (s_calls s) j) as [c|] eqn:E; [|discriminate H]. pose proof (D c (nth_error_In _ _ E)) as DK.
    assert (U : forall c', c_k c' = c_k c -> forall c1, In c1 (upd (s_calls s) j c') -> c_k c1 < k0) by (intros c' X c1 Y; destruct (in_upd _ _ _ _ Y) as [->|Y']; [congruence|auto]).
    assert (CP : forall i next stop, copy_cell s j c i next stop = Some s' -> kinv s').
    { intros i next stop X. unfold copy_cell in X. destruct (nth_error (c_sol c) i); [destruct (_ <? _); [|discriminate X]|]; injection X as <-; (split; [exact A|]; split; [exact B|]; apply U; reflexivity). }
    destruct (c_pc c);
      try (injection H as <-; split; [cbn [at_pc s_tg]; rewrite ?upd_length; exact A|]; split; [cbn [at_pc s_ls]; rewrite ?upd_length; exact B|]; apply U; reflexivity);
      try (apply (CP _ _ _ H)).
    + match type of H with context [nth_error ?a ?b] => destruct (nth_error a b) end; [|discriminate H]. injection H as <-. split; [exact A|]. split; [exact B|]. apply U. reflexivity.
    + destruct (s_lock s); [discriminate H|]. injection H as <-. split; [exact A|]. split; [exact B|]. apply U. reflexivity.
    + destruct (imp _). injection H as <-. split; [exact A|]. split; [exact B|]. apply U. reflexivity.
    + match type of H with context [nth_error ?a ?b] => destruct (nth_error a b) end; [|discriminate H]. injection H as <-. split; [exact A|]. split; [exact B|]. apply U. reflexivity.
    + destruct (s_lock s); [discriminate H|]. injection H as <-. split; [exact A|]. split; [exact B|]. apply U. reflexivity.
    + discriminate H.
Qed.
Lemma kinv_run : forall es s s', kinv s -> Forall event_k es -> fb_run value s es = Some s' -> kinv s'.
Proof.
  induction es as [|e es IH]; intros s s' I F H; cbn [fb_run] in H; [injection H as <-; exact I|]. inversion F as [|? ? F1 F2]. subst.
  destruct (fb_step value s e) as [s1|] eqn:E; [|discriminate H]. eapply IH; [eapply kinv_step; eauto|exact F2|exact H].
Qed.
Lemma kinv_start : kinv (fb_start n k0 gub0).
Proof. split; [apply repeat_length|]. split; [apply repeat_length|]. intros c []. Qed.

Theorem progress s imp : inv s -> kinv s -> (exists c, In c (s_calls s) /\ forall e, c_pc c <> Done e) -> exists j, call_step imp s j <> None.
Proof.
  intros I (KA & KB & KC) (c0 & IC & ND).
  assert (X : exists j c, nth_error (s_calls s) j = Some c /\ (forall e, c_pc c <> Done e) /\ (s_lock s = None \/ crit (c_pc c) = true)).
  { destruct (s_lock s) as [j|] eqn:L.
    - destruct (proj1 (i_lock s I j) L) as (c & H & H'). exists j, c. split; [exact H|]. split; [|auto]. intros e Y. rewrite Y in H'. discriminate H'.
    - destruct (In_nth_error _ _ IC) as [j H]. exists j, c0. auto. }
  destruct X as (j & c & E & NE & LC). exists j. unfold call_step. rewrite E. pose proof (KC c (nth_error_In _ _ E)) as KK. pose proof (i_calls s I j c E) as (_ & G2 & _). pose proof (i_best s I) as LB.
  assert (CP : forall i next stop, copy_cell s j c i next stop <> None).
  { intros i next stop. unfold copy_cell. destruct (nth_error (c_sol c) i) eqn:Y; [|discriminate]. assert (L : i < length (s_best s)) by (rewrite LB, <- G2; apply nth_error_Some; congruence). apply Nat.ltb_lt in L. rewrite L. discriminate. }
  destruct (c_pc c) eqn:PC; try discriminate; auto.
  - destruct (nth_error (s_ls s) (c_k c)) eqn:Y; [discriminate|]. apply nth_error_None in Y. lia.
  - destruct LC as [->|LC]; [discriminate|discriminate LC].
  - destruct (imp _). discriminate.
  - destruct (nth_error (s_tg s) (c_k c)) eqn:Y; [discriminate|]. apply nth_error_None in Y. lia.
  - destruct LC as [->|LC]; [discriminate|discriminate LC].
  - exfalso. apply (NE early). reflexivity.
Qed.
End BestSol.
