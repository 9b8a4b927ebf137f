(* P_Flow.v - proofs about push_relabel: the flow invariant, pushing, weak duality. *)
From Verif Require Import SpecCut LibZ P_Mutable M_PushRelabel P_MutableIO.

Lemma add_flow_at fl v e x a b : v < length fl -> e < length (nth v fl []) ->
  eflow (add_flow fl v e x) a b = (eflow fl a b + (if Nat.eqb a v && Nat.eqb b e then x else 0))%Z.
Proof.
  intros Hv He. unfold add_flow. unfold eflow at 1. destruct (Nat.eqb_spec a v) as [->|N]; cbn [andb].
  - rewrite nth_upd_eq by auto. destruct (Nat.eqb_spec b e) as [->|M].
    + rewrite nth_upd_eq by auto. reflexivity.
    + rewrite nth_upd_neq by auto. unfold eflow. lia.
  - rewrite nth_upd_neq by auto. unfold eflow. lia.
Qed.
Lemma add_flow_length fl v e x : length (add_flow fl v e x) = length fl.
Proof. apply upd_length. Qed.
Lemma add_flow_row fl v e x a : length (nth a (add_flow fl v e x) []) = length (nth a fl []).
Proof.
  unfold add_flow. rewrite nth_upd. destruct ((a =? v) && (v <? length fl)) eqn:E; [|reflexivity].
  apply andb_prop in E. destruct E as [E _]. apply Nat.eqb_eq in E. subst. apply upd_length.
Qed.

(** net flow from u to v *)
Definition Phi (R : list (list half)) (fl : list (list Z)) (u v : nat) : Z :=
  zsum (rl R u) (fun e => match slot R u e with Some (t, _, _) => if t =? v then eflow fl u e else 0%Z | None => 0%Z end).

Lemma Phi_add R fl v e t w r x a b : slot R v e = Some (t, w, r) -> v < length fl -> e < length (nth v fl []) ->
  Phi R (add_flow fl v e x) a b = (Phi R fl a b + (if Nat.eqb a v && Nat.eqb b t then x else 0))%Z.
Proof.
  intros S Hv He. destruct (slot_lt _ _ _ _ S) as [_ Hr]. unfold Phi. destruct (Nat.eqb_spec a v) as [->|N]; cbn [andb].
  - destruct (Nat.eqb_spec b t) as [->|M].
    + apply zsum_upd1 with (a := e); auto.
      * intros i Hi Ni. destruct (slot R v i) as [[[t' w'] r']|]; [|reflexivity]. destruct (t' =? t); [|reflexivity].
        rewrite add_flow_at by auto. destruct (Nat.eqb_spec i e); [contradiction|]. rewrite andb_false_r. lia.
      * rewrite S, !Nat.eqb_refl. rewrite add_flow_at by auto. rewrite !Nat.eqb_refl. reflexivity.
    + rewrite Z.add_0_r. apply zsum_ext. intros i Hi. destruct (slot R v i) as [[[t' w'] r']|] eqn:Si; [|reflexivity].
      destruct (Nat.eqb_spec t' b); [|reflexivity]. rewrite add_flow_at by auto.
      destruct (Nat.eqb_spec i e); [subst; congruence|]. rewrite andb_false_r. lia.
  - rewrite Z.add_0_r. apply zsum_ext. intros i Hi. destruct (slot R a i) as [[[t' w'] r']|]; [|reflexivity].
    destruct (t' =? b); [|reflexivity]. rewrite add_flow_at by auto. destruct (Nat.eqb_spec a v); [contradiction|]. cbn [andb]. lia.
Qed.

(** a preflow with supply K at src *)
Record finv (R : list (list half)) (src : nat) (K : Z) (fl : list (list Z)) (ex : list Z) : Prop := {
  f_len : length fl = length R;
  f_row : forall v, length (nth v fl []) = rl R v;
  f_elen : length ex = length R;
  f_cap : forall v e t w r, slot R v e = Some (t, w, r) -> (eflow fl v e <= Z.of_N w)%Z;
  f_anti : forall v e t w r, slot R v e = Some (t, w, r) -> eflow fl t r = (- eflow fl v e)%Z;
  f_phi : forall u v, u < length R -> v < length R -> Phi R fl u v = (- Phi R fl v u)%Z;
  f_ex : forall v, v < length R -> nth v ex 0%Z = ((if Nat.eqb v src then K else 0) - zsum (length R) (Phi R fl v))%Z;
  f_pos : forall v, v < length R -> (0 <= nth v ex 0)%Z }.

Lemma finv_push R src K fl ex v e t w r x : valid_rows R -> finv R src K fl ex -> slot R v e = Some (t, w, r) ->
  (0 <= x <= Z.of_N w - eflow fl v e)%Z -> (x <= nth v ex 0)%Z ->
  let ex1 := upd ex v (nth v ex 0 - x)%Z in
  finv R src K (add_flow (add_flow fl v e x) t r (- x)) (upd ex1 t (nth t ex1 0 + x)%Z).
Proof.
  intros V F S Hx Hx2 ex1. destruct (V v e t w r S) as [Ht [Nt S']].
  destruct (slot_lt _ _ _ _ S) as [Hv He]. change (slot R t r = Some (v, w, e)) in S'. destruct (slot_lt _ _ _ _ S') as [_ Hr].
  pose proof (f_len _ _ _ _ _ F) as FL. pose proof (f_row _ _ _ _ _ F) as FR. pose proof (f_elen _ _ _ _ _ F) as EL.
  assert (Hv1 : v < length fl) by congruence. assert (He1 : e < length (nth v fl [])) by (rewrite FR; auto).
  assert (Ht1 : t < length (add_flow fl v e x)) by (rewrite add_flow_length; congruence).
  assert (Hr1 : r < length (nth t (add_flow fl v e x) [])) by (rewrite add_flow_row, FR; auto).
  assert (AT : forall a b, eflow (add_flow (add_flow fl v e x) t r (- x)) a b =
     (eflow fl a b + (if Nat.eqb a v && Nat.eqb b e then x else 0) + (if Nat.eqb a t && Nat.eqb b r then - x else 0))%Z).
  { intros a b. rewrite add_flow_at by auto. rewrite add_flow_at by auto. reflexivity. }
  assert (PH : forall a b, Phi R (add_flow (add_flow fl v e x) t r (- x)) a b =
     (Phi R fl a b + (if Nat.eqb a v && Nat.eqb b t then x else 0) + (if Nat.eqb a t && Nat.eqb b v then - x else 0))%Z).
  { intros a b. rewrite (Phi_add R _ t r v w e) by auto. rewrite (Phi_add R _ v e t w r) by auto. reflexivity. }
  assert (EX : forall a, nth a (upd ex1 t (nth t ex1 0 + x)%Z) 0%Z =
     (nth a ex 0 - (if Nat.eqb a v then x else 0) + (if Nat.eqb a t then x else 0))%Z).
  { intro a. unfold ex1. rewrite (nth_upd _ t), upd_length. destruct (Nat.ltb_spec t (length ex)); [|lia].
    rewrite (nth_upd_neq _ v _ t) by auto. rewrite (nth_upd _ v). destruct (Nat.ltb_spec v (length ex)); [|lia].
    rewrite !andb_true_r. destruct (Nat.eqb_spec a t) as [->|Na].
    - destruct (Nat.eqb_spec t v); [congruence|]. lia.
    - destruct (Nat.eqb_spec a v) as [->|Nv]; lia. }
  constructor.
  - rewrite !add_flow_length. auto.
  - intro a. rewrite !add_flow_row. auto.
  - unfold ex1. rewrite !upd_length. auto.
  - intros a b t' w' r' S2. rewrite AT. pose proof (f_cap _ _ _ _ _ F a b t' w' r' S2).
    destruct (Nat.eqb_spec a v) as [->|Na], (Nat.eqb_spec b e) as [->|Nb]; cbn [andb].
    + destruct (Nat.eqb_spec v t); [congruence|]. cbn [andb]. rewrite S in S2. injection S2 as <- <- <-. lia.
    + destruct (Nat.eqb_spec v t); [congruence|]. cbn [andb]. lia.
    + destruct (Nat.eqb a t && Nat.eqb e r); lia.
    + destruct (Nat.eqb a t && Nat.eqb b r); lia.
  - intros a b t' w' r' S2. rewrite !AT. rewrite (f_anti _ _ _ _ _ F a b t' w' r' S2).
    destruct (V a b t' w' r' S2) as [Ht' [Nt' S2']]. change (slot R t' r' = Some (a, w', b)) in S2'.
    assert (I1 : (Nat.eqb t' v && Nat.eqb r' e)%bool = (Nat.eqb a t && Nat.eqb b r)%bool).
    { apply eq_iff_eq_true. rewrite !andb_true_iff, !Nat.eqb_eq. split; intros [-> ->].
      - rewrite S in S2'. injection S2' as -> -> ->. auto.
      - rewrite S' in S2. injection S2 as -> -> ->. auto. }
    assert (I2 : (Nat.eqb t' t && Nat.eqb r' r)%bool = (Nat.eqb a v && Nat.eqb b e)%bool).
    { apply eq_iff_eq_true. rewrite !andb_true_iff, !Nat.eqb_eq. split; intros [-> ->].
      - rewrite S' in S2'. injection S2' as -> -> ->. auto.
      - rewrite S in S2. injection S2 as -> -> ->. auto. }
    rewrite I1, I2. destruct (Nat.eqb a t && Nat.eqb b r), (Nat.eqb a v && Nat.eqb b e); lia.
  - intros a b Ha Hb. rewrite !PH. rewrite (f_phi _ _ _ _ _ F a b) by auto.
    rewrite (andb_comm (b =? v)), (andb_comm (b =? t)).
    destruct (Nat.eqb a t && Nat.eqb b v), (Nat.eqb a v && Nat.eqb b t); lia.
  - intros a Ha. rewrite EX. rewrite (f_ex _ _ _ _ _ F a) by auto.
    rewrite (zsum_ext _ (Phi R (add_flow (add_flow fl v e x) t r (- x)) a)
      (fun b => (Phi R fl a b + ((if Nat.eqb b t then (if Nat.eqb a v then x else 0) else 0)) + (if Nat.eqb b v then (if Nat.eqb a t then - x else 0) else 0))%Z)).
    + rewrite !zsum_add, (zsum_single _ t (fun _ => if Nat.eqb a v then x else 0%Z)), (zsum_single _ v (fun _ => if Nat.eqb a t then (- x)%Z else 0%Z)) by auto.
      destruct (a =? t), (a =? v); lia.
    + intros b Hb. rewrite PH. destruct (a =? v), (b =? t), (a =? t), (b =? v); cbn [andb]; lia.
  - intros a Ha. rewrite EX. pose proof (f_pos _ _ _ _ _ F a Ha).
    destruct (Nat.eqb_spec a v) as [->|]; destruct (Nat.eqb _ t); lia.
Qed.

Lemma wt_zsum R u v : Z.of_N (wt (adj R) u v) =
  zsum (rl R u) (fun e => match slot R u e with Some (t, w, _) => if t =? v then Z.of_N w else 0%Z | None => 0%Z end).
Proof.
  rewrite wt_ls. unfold ls. rewrite <- zsum_bsum. apply zsum_ext. intros e _. unfold val, nodead, fw.
  destruct (slot R u e) as [[[t w] r]|]; [|reflexivity]. destruct (t =? v); reflexivity.
Qed.

Lemma Phi_le R src K fl ex u v : finv R src K fl ex -> (Phi R fl u v <= Z.of_N (wt (adj R) u v))%Z.
Proof.
  intro F. rewrite wt_zsum. unfold Phi. apply zsum_le. intros e _. destruct (slot R u e) as [[[t w] r]|] eqn:S; [|lia].
  destruct (t =? v); [|lia]. eapply f_cap; eauto.
Qed.
Lemma Phi_eq R fl u v : (forall e w r, slot R u e = Some (v, w, r) -> eflow fl u e = Z.of_N w) ->
  Phi R fl u v = Z.of_N (wt (adj R) u v).
Proof.
  intro H. rewrite wt_zsum. unfold Phi. apply zsum_ext. intros e _. destruct (slot R u e) as [[[t w] r]|] eqn:S; [|lia].
  destruct (Nat.eqb_spec t v) as [->|]; [|lia]. eapply H; eauto.
Qed.

(** flow out of a vertex set *)
Definition out_flow (R : list (list half)) (fl : list (list Z)) (S : nat -> bool) : Z :=
  zsum (length R) (fun u => zsum (length R) (fun v => if S u && negb (S v) then Phi R fl u v else 0%Z)).

Lemma out_flow_le R src K fl ex S : finv R src K fl ex -> (out_flow R fl S <= Z.of_N (cutw (length R) (wt (adj R)) S))%Z.
Proof.
  intro F. unfold cutw. rewrite <- zsum_bsum. apply zsum_le. intros u Hu. rewrite <- zsum_bsum. apply zsum_le. intros v Hv.
  destruct (S u && negb (S v)); [|lia]. eapply Phi_le; eauto.
Qed.
Lemma out_flow_eq R fl S : (forall u v, u < length R -> v < length R -> S u = true -> S v = false ->
    forall e w r, slot R u e = Some (v, w, r) -> eflow fl u e = Z.of_N w) ->
  out_flow R fl S = Z.of_N (cutw (length R) (wt (adj R)) S).
Proof.
  intro H. unfold cutw. rewrite <- zsum_bsum. apply zsum_ext. intros u Hu. rewrite <- zsum_bsum. apply zsum_ext. intros v Hv.
  destruct (S u) eqn:Su, (S v) eqn:Sv; cbn [andb negb]; try lia. apply Phi_eq. eapply H; eauto.
Qed.

Lemma excess_sum R src K fl ex (S : nat -> bool) : finv R src K fl ex -> src < length R ->
  zsum (length R) (fun u => if S u then nth u ex 0%Z else 0%Z) = ((if S src then K else 0%Z) - out_flow R fl S)%Z.
Proof.
  intros F Hs. set (n := length R).
  assert (E1 : zsum n (fun u => if S u then nth u ex 0%Z else 0%Z) =
    (zsum n (fun u => if Nat.eqb u src then (if S src then K else 0) else 0) - zsum n (fun u => zsum n (fun v => if S u then Phi R fl u v else 0)))%Z).
  { rewrite <- zsum_sub. apply zsum_ext. intros u Hu. rewrite (zsum_if n (S u)). destruct (Nat.eqb_spec u src) as [->|Nu].
    - destruct (S src); [|lia]. rewrite (f_ex _ _ _ _ _ F src Hs), Nat.eqb_refl. reflexivity.
    - destruct (S u); [|lia]. rewrite (f_ex _ _ _ _ _ F u Hu). destruct (Nat.eqb_spec u src); [contradiction|]. reflexivity. }
  rewrite E1, (zsum_single n src (fun _ => if S src then K else 0%Z)) by auto.
  assert (E2 : zsum n (fun u => zsum n (fun v => if S u then Phi R fl u v else 0%Z)) =
    (out_flow R fl S + zsum n (fun u => zsum n (fun v => if S u && S v then Phi R fl u v else 0)))%Z).
  { unfold out_flow. fold n. rewrite <- zsum_add. apply zsum_ext. intros u Hu. rewrite <- zsum_add. apply zsum_ext. intros v Hv.
    destruct (S u), (S v); cbn [andb negb]; lia. }
  rewrite E2.
  set (A := zsum n (fun u => zsum n (fun v => if S u && S v then Phi R fl u v else 0%Z))).
  assert (E3 : A = (- A)%Z).
  { unfold A at 2. rewrite <- zsum_opp. unfold A. rewrite zsum_swap. apply zsum_ext. intros u Hu. rewrite <- zsum_opp. apply zsum_ext. intros v Hv.
    rewrite (andb_comm (S v)). destruct (S u && S v); [|lia]. rewrite (f_phi _ _ _ _ _ F v u) by auto. lia. }
  lia.
Qed.
