(* P_Mutable.v - proofs about mutable_graph: rows with dead half edges, primitive steps. *)
From Verif Require Import SpecCut P_Cut M_Mutable.

Definition rl (R : list (list half)) (v : nat) : nat := length (nth v R []).

Arguments slot : simpl never.
Arguments rl : simpl never.

Ltac eqb := repeat match goal with
  | |- context [?a =? ?b] => destruct (Nat.eqb_spec a b); [subst|]
  end; cbn [andb orb negb] in *.

Lemma slot_lt R v e x : slot R v e = Some x -> v < length R /\ e < rl R v.
Proof.
  unfold slot, rl. intro H. assert (e < length (nth v R [])) by (apply nth_error_Some; congruence).
  split; [|auto]. destruct (Nat.lt_ge_cases v (length R)); [auto|]. rewrite nth_overflow in H by auto. destruct e; discriminate.
Qed.
Lemma slot_some R v e : e < rl R v -> exists t w r, slot R v e = Some (t, w, r).
Proof.
  unfold slot, rl. intro H. destruct (nth_error (nth v R []) e) as [[[t w] r]|] eqn:E; [eauto|].
  apply nth_error_None in E. lia.
Qed.
Lemma slot_none R v e : rl R v <= e -> slot R v e = None.
Proof. intro H. apply nth_error_None. exact H. Qed.
Lemma rl_lt R v e : e < rl R v -> v < length R.
Proof.
  unfold rl. intro H. destruct (Nat.lt_ge_cases v (length R)); [auto|]. rewrite nth_overflow in H by auto. simpl in H. lia.
Qed.

Lemma nth_error_upd {A} (l : list A) i x j : i < length l -> nth_error (upd l i x) j = if j =? i then Some x else nth_error l j.
Proof.
  intro H. destruct (Nat.eqb_spec j i) as [->|N].
  - rewrite nth_error_nth_lt with (d := x) by (rewrite upd_length; auto). rewrite nth_upd_eq; auto.
  - destruct (Nat.lt_ge_cases j (length l)) as [L|L].
    + rewrite !nth_error_nth_lt with (d := x) by (rewrite ?upd_length; auto). rewrite nth_upd_neq; auto.
    + rewrite !(proj2 (nth_error_None _ _)); auto. rewrite upd_length. auto.
Qed.

Lemma slot_upd R v row a b : v < length R -> slot (upd R v row) a b = if a =? v then nth_error row b else slot R a b.
Proof.
  intro H. unfold slot. destruct (Nat.eqb_spec a v) as [->|N]; [rewrite nth_upd_eq by auto|rewrite nth_upd_neq by auto]; reflexivity.
Qed.
Lemma rl_upd R v row a : v < length R -> rl (upd R v row) a = if a =? v then length row else rl R a.
Proof.
  intro H. unfold rl. destruct (Nat.eqb_spec a v) as [->|N]; [rewrite nth_upd_eq by auto|rewrite nth_upd_neq by auto]; reflexivity.
Qed.

Lemma slot_rset R v e x a b : e < rl R v -> slot (rset R v e x) a b = if (a =? v) && (b =? e) then Some x else slot R a b.
Proof.
  intro H. pose proof (rl_lt R v e H). unfold rset. rewrite slot_upd by auto. destruct (Nat.eqb_spec a v) as [->|N]; [|reflexivity].
  apply nth_error_upd. exact H.
Qed.
Lemma rl_rset R v e x a : rl (rset R v e x) a = rl R a.
Proof.
  destruct (Nat.lt_ge_cases v (length R)) as [H|H].
  - unfold rset. rewrite rl_upd by auto. eqb; [|reflexivity]. rewrite upd_length. reflexivity.
  - unfold rset. rewrite upd_out by auto. reflexivity.
Qed.
Lemma length_rset R v e x : length (rset R v e x) = length R.
Proof. apply upd_length. Qed.
Lemma length_push R v x : length (push R v x) = length R.
Proof. apply upd_length. Qed.
Lemma slot_push R v x a b : v < length R -> slot (push R v x) a b = if (a =? v) && (b =? rl R v) then Some x else slot R a b.
Proof.
  intro H. unfold push. rewrite slot_upd by auto. unfold rl. destruct (Nat.eqb_spec a v) as [->|N]; cbn [andb]; [|reflexivity].
  destruct (Nat.eqb_spec b (length (nth v R []))) as [->|Nb].
  - rewrite nth_error_app2 by lia. rewrite Nat.sub_diag. reflexivity.
  - destruct (Nat.lt_ge_cases b (length (nth v R []))).
    + rewrite nth_error_app1 by auto. reflexivity.
    + unfold slot. rewrite !(proj2 (nth_error_None _ _)); auto. rewrite app_length. simpl. lia.
Qed.
Lemma rl_push R v x a : v < length R -> rl (push R v x) a = if a =? v then S (rl R v) else rl R a.
Proof. intro H. unfold push. rewrite rl_upd by auto. eqb; [|reflexivity]. rewrite app_length. simpl. unfold rl. lia. Qed.

Lemma nth_error_removelast {A} (l : list A) b : nth_error (removelast l) b = if S b =? length l then None else nth_error l b.
Proof.
  revert b. induction l as [|a l IH]; intro b; [destruct b; reflexivity|].
  destruct l as [|a' l]; [destruct b as [|b]; [reflexivity|]; simpl; destruct b; reflexivity|].
  change (removelast (a :: a' :: l)) with (a :: removelast (a' :: l)). destruct b as [|b]; [reflexivity|]. simpl nth_error at 1.
  rewrite IH. simpl length. reflexivity.
Qed.
Lemma length_removelast {A} (l : list A) : length (removelast l) = length l - 1.
Proof.
  induction l as [|a l IH]; [reflexivity|]. destruct l as [|a' l]; [reflexivity|].
  change (removelast (a :: a' :: l)) with (a :: removelast (a' :: l)). simpl length in *. lia.
Qed.

(** * dead half edges *)
Definition dead := nat -> nat -> bool.
Definition dadd (D : dead) (v e : nat) : dead := fun a b => D a b || ((a =? v) && (b =? e)).
Definition dsub (D : dead) (v e : nat) : dead := fun a b => D a b && negb ((a =? v) && (b =? e)).

Definition linked (D : dead) (R : list (list half)) : Prop :=
  forall v e t w r, slot R v e = Some (t, w, r) -> D v e = false ->
    t < length R /\ t <> v /\ D t r = false /\ slot R t r = Some (v, w, e).

(** contribution of a half edge, and the sum over the live half edges of a row; f: function of target and weight *)
Definition val (D : dead) (R : list (list half)) (f : nat -> N -> N) (u e : nat) : N :=
  match slot R u e with Some (t, w, _) => if D u e then 0%N else f t w | None => 0%N end.
Definition ls (D : dead) (R : list (list half)) (f : nat -> N -> N) (u : nat) : N := bsum (rl R u) (val D R f u).

Lemma val_live D R f u e t w r : slot R u e = Some (t, w, r) -> D u e = false -> val D R f u e = f t w.
Proof. intros H K. unfold val. rewrite H, K. reflexivity. Qed.
Lemma val_dead D R f u e : D u e = true -> val D R f u e = 0%N.
Proof. intro K. unfold val. rewrite K. destruct (slot R u e) as [[[? ?] ?]|]; reflexivity. Qed.

Lemma linked_ext D D' R : (forall a b, b < rl R a -> D a b = D' a b) -> linked D R -> linked D' R.
Proof.
  intros E L v e t w r S Dd. destruct (slot_lt _ _ _ _ S) as [_ Le]. rewrite <- E in Dd by auto.
  destruct (L v e t w r S Dd) as [A [B [C F]]]. split; [auto|]. split; [auto|]. split; [|auto].
  destruct (slot_lt _ _ _ _ F) as [_ Lr]. rewrite <- E; auto.
Qed.

Lemma ls_ext D D' R R' f u : rl R' u = rl R u ->
  (forall e, e < rl R u -> val D' R' f u e = val D R f u e) -> ls D' R' f u = ls D R f u.
Proof. intros L E. unfold ls. rewrite L. apply bsum_ext. auto. Qed.

Lemma bsum_point m g g' e : e < m -> (forall i, i < m -> i <> e -> g' i = g i) -> (bsum m g' + g e = bsum m g + g' e)%N.
Proof.
  revert e. induction m as [|m IH]; intros e He E; [lia|]. rewrite !bsum_S. destruct (Nat.eq_dec e m) as [->|N].
  - rewrite (bsum_ext m g' g); [lia|]. intros i Hi. apply E; lia.
  - rewrite (E m) by lia. specialize (IH e ltac:(lia)). rewrite <- N.add_assoc, (N.add_comm (g m)), N.add_assoc, IH; [lia|].
    intros i Hi. apply E. lia.
Qed.

Lemma ls_point D D' R R' f u e : rl R' u = rl R u -> e < rl R u ->
  (forall i, i < rl R u -> i <> e -> val D' R' f u i = val D R f u i) ->
  (ls D' R' f u + val D R f u e = ls D R f u + val D' R' f u e)%N.
Proof. intros L H E. unfold ls. rewrite L. apply bsum_point; auto. Qed.

(** internalDeleteEdge of a dead half edge *)
Definition moved (D : dead) (v last e : nat) (a b : nat) (h : half) : half :=
  (fst (fst h), snd (fst h), if negb (D a b) && (fst (fst h) =? v) && (snd h =? last) then e else snd h).

Lemma idel_ok D R v e : linked D R -> e < rl R v -> D v e = true -> (S e < rl R v -> D v (rl R v - 1) = false) ->
  exists R', internal_delete R v e = Some R' /\ length R' = length R /\
    (forall a, rl R' a = if a =? v then rl R a - 1 else rl R a) /\
    (forall a b, a <> v -> slot R' a b = option_map (moved D v (rl R v - 1) e a b) (slot R a b)) /\
    (forall b, slot R' v b = if S b =? rl R v then None else if b =? e then slot R v (rl R v - 1) else slot R v b) /\
    linked (dsub D v e) R' /\ forall f u, ls (dsub D v e) R' f u = ls D R f u.
Proof.
  intros L He De Lv. pose proof (rl_lt R v e He) as Hv. unfold internal_delete. fold (rl R v).
  destruct (Nat.ltb_spec (S e) (rl R v)) as [Lt|Ge].
  - specialize (Lv Lt). set (last := rl R v - 1) in *.
    destruct (slot_some R v last ltac:(unfold last; lia)) as (t & w & r & Sl).
    assert (Nl : nth last (nth v R []) (0, 0%N, 0) = (t, w, r)).
    { unfold slot in Sl. apply nth_error_nth with (d := (0, 0%N, 0)) in Sl. auto. }
    rewrite Nl. cbn [fst snd].
    destruct (L v last t w r Sl Lv) as [Ht [Ntv [Dt St]]].
    set (R1 := upd R v (removelast (upd (nth v R []) e (t, w, r)))).
    assert (S1 : forall a b, slot R1 a b = if a =? v then (if S b =? rl R v then None else if b =? e then Some (t, w, r) else slot R v b) else slot R a b).
    { intros a b. unfold R1. rewrite slot_upd by auto. destruct (Nat.eqb_spec a v) as [->|N]; [|reflexivity].
      rewrite nth_error_removelast, upd_length. fold (rl R v). rewrite nth_error_upd by (fold (rl R v); lia). reflexivity. }
    assert (L1 : forall a, rl R1 a = if a =? v then rl R a - 1 else rl R a).
    { intro a. unfold R1. rewrite rl_upd by auto. destruct (Nat.eqb_spec a v) as [->|N]; [|reflexivity].
      rewrite length_removelast, upd_length. reflexivity. }
    unfold set_rev. rewrite S1. destruct (Nat.eqb_spec t v) as [->|_]; [congruence|]. rewrite St.
    assert (Hr : r < rl R1 t).
    { rewrite L1. destruct (Nat.eqb_spec t v); [congruence|]. apply (slot_lt _ _ _ _ St). }
    set (R2 := rset R1 t r (v, w, e)).
    assert (S2 : forall a b, slot R2 a b = if (a =? t) && (b =? r) then Some (v, w, e) else slot R1 a b).
    { intros a b. unfold R2. apply slot_rset. auto. }
    assert (L2 : forall a, rl R2 a = if a =? v then rl R a - 1 else rl R a).
    { intro a. unfold R2. rewrite rl_rset. apply L1. }
    assert (N2 : length R2 = length R) by (unfold R2, R1; rewrite length_rset, upd_length; auto).
    assert (A : forall a b, a <> v -> slot R2 a b = option_map (moved D v last e a b) (slot R a b)).
    { intros a b N. rewrite S2, S1. destruct (Nat.eqb_spec a v); [congruence|].
      destruct (Nat.eqb_spec a t) as [->|Na]; cbn [andb].
      - destruct (Nat.eqb_spec b r) as [->|Nb].
        + rewrite St. unfold moved. cbn. rewrite Dt, !Nat.eqb_refl. reflexivity.
        + destruct (slot R t b) as [[[t' w'] r']|] eqn:Q; [|reflexivity]. unfold moved. cbn.
          destruct (D t b) eqn:Db; [reflexivity|]. cbn. destruct (Nat.eqb_spec t' v) as [->|]; [|reflexivity]. cbn.
          destruct (Nat.eqb_spec r' last) as [->|]; [|reflexivity].
          destruct (L t b v w' last Q Db) as [_ [_ [_ X]]]. rewrite Sl in X. congruence.
      - destruct (slot R a b) as [[[t' w'] r']|] eqn:Q; [|reflexivity]. unfold moved. cbn.
        destruct (D a b) eqn:Db; [reflexivity|]. cbn. destruct (Nat.eqb_spec t' v) as [->|]; [|reflexivity]. cbn.
        destruct (Nat.eqb_spec r' last) as [->|]; [|reflexivity].
        destruct (L a b v w' last Q Db) as [_ [_ [_ X]]]. rewrite Sl in X. congruence. }
    assert (B : forall b, slot R2 v b = if S b =? rl R v then None else if b =? e then slot R v last else slot R v b).
    { intro b. rewrite S2, S1, Nat.eqb_refl, Sl. destruct (Nat.eqb_spec v t); [congruence|]. reflexivity. }
    exists R2. split; [auto|]. split; [auto|]. split; [auto|]. split; [auto|]. split; [auto|]. split.
    + (* linked *)
      intros a b t' w' r' Sa Da. rewrite N2.
      destruct (Nat.eq_dec a v) as [->|Na].
      * rewrite B in Sa. destruct (Nat.eqb_spec (S b) (rl R v)) as [|NL]; [discriminate|].
        destruct (Nat.eqb_spec b e) as [->|Nb].
        -- rewrite Sl in Sa. injection Sa as <- <- <-. split; [auto|]. split; [auto|]. split.
           ++ unfold dsub. rewrite Dt. reflexivity.
           ++ rewrite A by auto. rewrite St. unfold moved. cbn. rewrite Dt, !Nat.eqb_refl. reflexivity.
        -- assert (Db : D v b = false).
           { unfold dsub in Da. destruct (D v b); [|auto]. cbn in Da. rewrite Nat.eqb_refl in Da. destruct (Nat.eqb_spec b e); [congruence|]. discriminate. }
           destruct (L v b t' w' r' Sa Db) as [Ht' [Nt' [Dt' St']]]. split; [auto|]. split; [auto|]. split.
           ++ unfold dsub. rewrite Dt'. reflexivity.
           ++ rewrite A by auto. rewrite St'. unfold moved. cbn. rewrite Dt', Nat.eqb_refl. cbn.
              destruct (Nat.eqb_spec b last) as [->|]; [|reflexivity]. unfold last in NL. lia.
      * rewrite A in Sa by auto. destruct (slot R a b) as [[[t0 w0] r0]|] eqn:Q; [|discriminate]. injection Sa as <- <- <-. cbn.
        assert (Db : D a b = false).
        { unfold dsub in Da. destruct (D a b); [|auto]. cbn in Da. destruct (Nat.eqb_spec a v); [congruence|]. discriminate. }
        destruct (L a b t0 w0 r0 Q Db) as [Ht' [Nt' [Dt' St']]]. split; [auto|]. split; [auto|]. rewrite Db. cbn.
        destruct (Nat.eqb_spec t0 v) as [->|Nt0].
        -- cbn. destruct (Nat.eqb_spec r0 last) as [->|Nr].
           ++ split; [unfold dsub; rewrite De; cbn; rewrite !Nat.eqb_refl; reflexivity|].
              rewrite B. destruct (Nat.eqb_spec (S e) (rl R v)); [lia|]. rewrite Nat.eqb_refl. auto.
           ++ split; [unfold dsub; rewrite Dt'; reflexivity|]. rewrite B.
              destruct (slot_lt _ _ _ _ St') as [_ Lr]. destruct (Nat.eqb_spec (S r0) (rl R v)); [unfold last in Nr; lia|].
              destruct (Nat.eqb_spec r0 e) as [->|]; [congruence|auto].
        -- cbn. split; [unfold dsub; rewrite Dt'; reflexivity|]. rewrite A by auto. rewrite St'. unfold moved. cbn.
           destruct (Nat.eqb_spec a v); [congruence|]. rewrite andb_false_r. reflexivity.
    + (* sums *)
      intros f u. destruct (Nat.eq_dec u v) as [->|Nu].
      * unfold ls. rewrite L2, Nat.eqb_refl. replace (rl R v) with (S last) at 2 by (unfold last; lia). rewrite bsum_S.
        replace (rl R v - 1) with last by reflexivity.
        assert (Hel : e < last) by (unfold last; lia).
        pose proof (bsum_point last (val D R f v) (val (dsub D v e) R2 f v) e Hel) as P.
        assert (V0 : val D R f v e = 0%N) by (unfold val; rewrite De; destruct (slot R v e) as [[[? ?] ?]|]; reflexivity).
        assert (V1 : val (dsub D v e) R2 f v e = val D R f v last).
        { unfold val. rewrite B. destruct (Nat.eqb_spec (S e) (rl R v)); [lia|]. rewrite Nat.eqb_refl, Sl, Lv.
          unfold dsub. rewrite De, !Nat.eqb_refl. reflexivity. }
        rewrite V0, V1 in P. rewrite <- P; [lia|]. intros i Hi Ni. unfold val. rewrite B.
        destruct (Nat.eqb_spec (S i) (rl R v)); [unfold last in Hi; lia|]. destruct (Nat.eqb_spec i e); [congruence|].
        unfold dsub. destruct (Nat.eqb_spec i e); [congruence|]. rewrite andb_false_r, andb_true_r. reflexivity.
      * apply ls_ext; [rewrite L2; destruct (Nat.eqb_spec u v); [congruence|reflexivity]|].
        intros b Hb. unfold val. rewrite A by auto. unfold dsub. destruct (Nat.eqb_spec u v); [congruence|].
        cbn [andb negb]. rewrite andb_true_r. destruct (slot R u b) as [[[? ?] ?]|]; reflexivity.
  - destruct (Nat.eqb_spec (rl R v) 0); [lia|]. assert (Ee : e = rl R v - 1) by lia.
    set (R1 := upd R v (removelast (nth v R []))).
    assert (S1 : forall a b, slot R1 a b = if a =? v then (if S b =? rl R v then None else slot R v b) else slot R a b).
    { intros a b. unfold R1. rewrite slot_upd by auto. destruct (Nat.eqb_spec a v) as [->|N]; [|reflexivity].
      rewrite nth_error_removelast. reflexivity. }
    assert (L1 : forall a, rl R1 a = if a =? v then rl R a - 1 else rl R a).
    { intro a. unfold R1. rewrite rl_upd by auto. destruct (Nat.eqb_spec a v) as [->|N]; [|reflexivity].
      rewrite length_removelast. reflexivity. }
    assert (N1 : length R1 = length R) by apply upd_length.
    assert (A : forall a b, a <> v -> slot R1 a b = option_map (moved D v (rl R v - 1) e a b) (slot R a b)).
    { intros a b N. rewrite S1. destruct (Nat.eqb_spec a v); [congruence|].
      destruct (slot R a b) as [[[t' w'] r']|]; [|reflexivity]. unfold moved. cbn. rewrite <- Ee.
      destruct (negb (D a b) && (t' =? v)); [|reflexivity]. cbn. destruct (Nat.eqb_spec r' e) as [->|]; reflexivity. }
    assert (B : forall b, slot R1 v b = if S b =? rl R v then None else if b =? e then slot R v (rl R v - 1) else slot R v b).
    { intro b. rewrite S1, Nat.eqb_refl. destruct (Nat.eqb_spec (S b) (rl R v)); [reflexivity|].
      destruct (Nat.eqb_spec b e) as [->|]; [lia|reflexivity]. }
    exists R1. split; [auto|]. split; [auto|]. split; [auto|]. split; [auto|]. split; [auto|]. split.
    + intros a b t w r Sa Da. rewrite N1.
      assert (Q : slot R a b = Some (t, w, r) /\ D a b = false).
      { rewrite S1 in Sa. unfold dsub in Da. destruct (Nat.eqb_spec a v) as [->|N].
        - destruct (Nat.eqb_spec (S b) (rl R v)) as [|N2]; [discriminate|]. split; [auto|].
          destruct (Nat.eqb_spec b e) as [->|]; [lia|]. cbn in Da. rewrite andb_true_r in Da. auto.
        - split; [auto|]. cbn in Da. rewrite andb_true_r in Da. auto. }
      destruct Q as [Q Db]. destruct (L a b t w r Q Db) as [Ht [Nt [Dt St]]]. split; [auto|]. split; [auto|].
      split; [unfold dsub; rewrite Dt; reflexivity|]. rewrite S1. destruct (Nat.eqb_spec t v) as [->|]; [|auto].
      destruct (Nat.eqb_spec (S r) (rl R v)) as [E2|]; [|auto]. assert (r = e) by lia. congruence.
    + intros f u. destruct (Nat.eq_dec u v) as [->|Nu].
      * unfold ls. rewrite L1, Nat.eqb_refl. replace (rl R v) with (S e) at 2 by lia. rewrite bsum_S.
        replace (rl R v - 1) with e by lia.
        assert (V0 : val D R f v e = 0%N) by (unfold val; rewrite De; destruct (slot R v e) as [[[? ?] ?]|]; reflexivity).
        rewrite V0, N.add_0_r. apply bsum_ext. intros i Hi. unfold val. rewrite S1, Nat.eqb_refl.
        destruct (Nat.eqb_spec (S i) (rl R v)); [lia|]. unfold dsub. destruct (Nat.eqb_spec i e); [lia|].
        rewrite andb_false_r, andb_true_r. reflexivity.
      * apply ls_ext; [rewrite L1; destruct (Nat.eqb_spec u v); [congruence|reflexivity]|].
        intros b Hb. unfold val. rewrite S1. destruct (Nat.eqb_spec u v); [congruence|]. unfold dsub.
        destruct (Nat.eqb_spec u v); [congruence|]. cbn. rewrite andb_true_r. reflexivity.
Qed.

(** making both halves of a live edge dead *)
Lemma kill_ok D R v e t w r : linked D R -> slot R v e = Some (t, w, r) -> D v e = false ->
  linked (dadd (dadd D v e) t r) R /\
  forall f u, ls D R f u = (ls (dadd (dadd D v e) t r) R f u + (if Nat.eqb u v then f t w else 0) + (if Nat.eqb u t then f v w else 0))%N.
Proof.
  intros L Sv Dv. destruct (L v e t w r Sv Dv) as [Ht [Nt [Dt St]]]. split.
  - intros a b t' w' r' Sa Da. unfold dadd in Da. apply orb_false_iff in Da. destruct Da as [Da1 Da2].
    apply orb_false_iff in Da1. destruct Da1 as [Da0 Da1].
    destruct (L a b t' w' r' Sa Da0) as [Ht' [Nt' [Dt' St']]]. split; [auto|]. split; [auto|]. split; [|auto].
    unfold dadd. rewrite Dt'. cbn. apply orb_false_iff. split.
    + destruct (Nat.eqb_spec t' v) as [->|]; [|reflexivity]. destruct (Nat.eqb_spec r' e) as [->|]; [|reflexivity].
      rewrite Sv in St'. injection St' as -> -> ->. rewrite !Nat.eqb_refl in Da2. discriminate.
    + destruct (Nat.eqb_spec t' t) as [->|]; [|reflexivity]. destruct (Nat.eqb_spec r' r) as [->|]; [|reflexivity].
      rewrite St in St'. injection St' as -> -> ->. rewrite !Nat.eqb_refl in Da1. discriminate.
  - intros f u. destruct (Nat.eqb_spec u v) as [->|Nu].
    + destruct (Nat.eqb_spec v t); [congruence|].
      pose proof (ls_point D (dadd (dadd D v e) t r) R R f v e eq_refl (proj2 (slot_lt _ _ _ _ Sv))) as P.
      rewrite (val_live D R f v e t w r Sv Dv), (val_dead (dadd (dadd D v e) t r) R f v e) in P
        by (unfold dadd; rewrite !Nat.eqb_refl, orb_true_r; reflexivity). rewrite <- (N.add_0_r (ls D R f v)), <- P; [lia|].
      intros i _ Ni. unfold val, dadd. destruct (Nat.eqb_spec i e); [congruence|]. destruct (Nat.eqb_spec v t); [congruence|].
      rewrite andb_false_r, !orb_false_r. reflexivity.
    + destruct (Nat.eqb_spec u t) as [->|Nt2].
      * pose proof (ls_point D (dadd (dadd D v e) t r) R R f t r eq_refl (proj2 (slot_lt _ _ _ _ St))) as P.
        rewrite (val_live D R f t r v w e St Dt), (val_dead (dadd (dadd D v e) t r) R f t r) in P
          by (unfold dadd; rewrite !Nat.eqb_refl, orb_true_r; reflexivity). rewrite <- (N.add_0_r (ls D R f t)), <- P; [lia|].
        intros i _ Ni. unfold val, dadd. destruct (Nat.eqb_spec i r); [congruence|]. destruct (Nat.eqb_spec t v); [congruence|].
        rewrite andb_false_r, !orb_false_r. reflexivity.
      * rewrite !N.add_0_r. apply ls_ext; [reflexivity|]. intros i _. unfold val, dadd.
        destruct (Nat.eqb_spec u v); [congruence|]. destruct (Nat.eqb_spec u t); [congruence|]. cbn. rewrite !orb_false_r. reflexivity.
Qed.

(** removing the far half of a live edge (n, e); the near half becomes dead *)
Lemma drop_ok D R n e t w r : linked D R -> slot R n e = Some (t, w, r) -> D n e = false -> (forall b, D t b = false) ->
  exists R', internal_delete R t r = Some R' /\ length R' = length R /\
    (forall a, rl R' a = if a =? t then rl R a - 1 else rl R a) /\
    (forall a b, a <> t -> slot R' a b = option_map (moved D t (rl R t - 1) r a b) (slot R a b)) /\
    (forall b, slot R' t b = if S b =? rl R t then None else if b =? r then slot R t (rl R t - 1) else slot R t b) /\
    linked (dadd D n e) R' /\
    forall f u, ls D R f u = (ls (dadd D n e) R' f u + (if Nat.eqb u n then f t w else 0) + (if Nat.eqb u t then f n w else 0))%N.
Proof.
  intros L Sn Dn Dt. destruct (L n e t w r Sn Dn) as [Ht [Nt [Dr St]]].
  destruct (kill_ok D R n e t w r L Sn Dn) as [L1 V1]. set (D1 := dadd (dadd D n e) t r) in *.
  assert (D1r : D1 t r = true) by (unfold D1, dadd; rewrite !Nat.eqb_refl, orb_true_r; reflexivity).
  destruct (slot_lt _ _ _ _ St) as [_ Hr].
  destruct (idel_ok D1 R t r L1 Hr D1r) as (R' & E & N' & L' & A & B & LK & V).
  { intro Hl. unfold D1, dadd. rewrite Dt. destruct (Nat.eqb_spec t n); [congruence|].
    destruct (Nat.eqb_spec (rl R t - 1) r); [lia|]. rewrite andb_false_r. reflexivity. }
  assert (EQ : forall a b, dsub D1 t r a b = dadd D n e a b).
  { intros a b. unfold dsub, D1, dadd. destruct (Nat.eqb_spec a t) as [->|]; cbn.
    - rewrite Dt. destruct (Nat.eqb_spec t n); [congruence|]. cbn. destruct (b =? r); reflexivity.
    - rewrite orb_false_r, andb_true_r. reflexivity. }
  exists R'. split; [auto|]. split; [auto|]. split; [auto|]. split; [|split; [auto|split]].
  - intros a b Na. rewrite A by auto. destruct (slot R a b) as [[[t' w'] r']|] eqn:Q; [|reflexivity]. cbn. f_equal.
    unfold moved, D1, dadd. cbn. destruct (Nat.eqb_spec a t); [congruence|]. cbn. rewrite orb_false_r.
    destruct (Nat.eqb_spec a n) as [->|]; cbn; [|rewrite orb_false_r; reflexivity].
    destruct (Nat.eqb_spec b e) as [->|]; [|rewrite orb_false_r; reflexivity].
    rewrite orb_true_r. rewrite Sn in Q. injection Q as <- <- <-. cbn.
    destruct (negb (D n e) && (t =? t)); cbn; [|reflexivity]. destruct (Nat.eqb_spec r (rl R t - 1)); reflexivity.
  - apply linked_ext with (D := dsub D1 t r); [intros; apply EQ|auto].
  - intros f u. rewrite V1, <- V. f_equal. f_equal. apply ls_ext; [reflexivity|]. intros b _. unfold val. rewrite EQ. reflexivity.
Qed.

Definition nodead : dead := fun _ _ => false.

Lemma linked_valid R : linked nodead R <-> valid_rows R.
Proof.
  split.
  - intros L v e t w r S. destruct (L v e t w r S eq_refl) as [A [B [_ C]]]. auto.
  - intros V v e t w r S _. destruct (V v e t w r S) as [A [B C]]. auto.
Qed.

(** sums over rows *)
Lemma nth_error_nth_map {A B} (g : A -> B) (l : list A) i d : i < length l -> nth i (map g l) d = match nth_error l i with Some x => g x | None => d end.
Proof. revert i; induction l as [|a l IH]; intros [|i] H; simpl in *; try lia; auto. apply IH. lia. Qed.

Lemma sumN_bsum {A} (g : A -> N) (l : list A) (d : A) : sumN g l = bsum (length l) (fun i => match nth_error l i with Some x => g x | None => 0%N end).
Proof.
  induction l as [|a l IH] using rev_ind; [reflexivity|]. rewrite sumN_app, app_length, Nat.add_1_r, bsum_S. f_equal.
  - rewrite IH. apply bsum_ext. intros i Hi. rewrite nth_error_app1; auto.
  - rewrite nth_error_app2, Nat.sub_diag by lia. simpl. lia.
Qed.

Lemma ls_nodead R f u : ls nodead R f u = sumN (fun h => f (fst (fst h)) (snd (fst h))) (nth u R []).
Proof.
  rewrite (@sumN_bsum half _ _ (0, 0%N, 0)). unfold ls, rl. apply bsum_ext. intros i Hi. unfold val, slot, nodead.
  destruct (nth_error (nth u R []) i) as [[[t w] r]|]; reflexivity.
Qed.

Definition fw (x : nat) : nat -> N -> N := fun t w => if t =? x then w else 0%N.
Definition fd : nat -> N -> N := fun _ w => w.
Definition fc : nat -> N -> N := fun _ _ => 1%N.

Lemma adj_length R : length (adj R) = length R.
Proof. apply map_length. Qed.
Lemma adj_nth R u : nth u (adj R) [] = map (fun h => (fst (fst h), snd (fst h))) (nth u R []).
Proof. unfold adj. apply (map_nth (map (fun h : half => (fst (fst h), snd (fst h)))) R [] u). Qed.

Lemma wt_ls R u x : wt (adj R) u x = ls nodead R (fw x) u.
Proof.
  rewrite ls_nodead. unfold wt. rewrite adj_nth, sumN_filter, sumN_map. apply sumN_ext. intros h _. unfold fw. cbn. reflexivity.
Qed.
Lemma deg_ls R degs : degrees_exact R degs <-> length degs = length R /\ forall v, v < length R -> nth v degs 0%N = ls nodead R fd v.
Proof.
  unfold degrees_exact. split; intros [A B]; (split; [auto|]); intros v Hv; rewrite (B v Hv), ls_nodead; reflexivity.
Qed.
Lemma sumN_const1 {A} (l : list A) : sumN (fun _ => 1%N) l = N.of_nat (length l).
Proof. induction l as [|a l IH]; [reflexivity|]. simpl length. rewrite Nat2N.inj_succ. simpl sumN. rewrite IH. lia. Qed.
Lemma cnt_ls R m : count_exact R m <-> m = bsum (length R) (ls nodead R fc).
Proof.
  unfold count_exact. assert (E : sumN (fun row => N.of_nat (length row)) R = bsum (length R) (ls nodead R fc)).
  { rewrite (@sumN_bsum (list half) _ _ []). apply bsum_ext. intros i Hi. rewrite ls_nodead. rewrite nth_error_nth_lt with (d := []) by auto.
    rewrite <- sumN_const1. reflexivity. }
  rewrite E. reflexivity.
Qed.

(** * single edge operations *)
Definition pairf (v t : nat) (w : N) (f : nat -> N -> N) (u : nat) : N :=
  ((if Nat.eqb u v then f t w else 0) + (if Nat.eqb u t then f v w else 0))%N.

Lemma pairf_count n v t w : v < n -> t < n -> bsum n (pairf v t w fc) = 2%N.
Proof.
  intros Hv Ht. unfold pairf. rewrite bsum_add.
  rewrite (bsum_single n (fun _ => fc t w) v), (bsum_single n (fun _ => fc v w) t) by auto. reflexivity.
Qed.

(** rows R' arise from R by removing an edge v t of weight w0 and adding one of weight w *)
Definition changed (R R' : list (list half)) (dec inc : (nat -> N -> N) -> nat -> N) : Prop :=
  length R' = length R /\ forall f u, (ls nodead R' f u + dec f u = ls nodead R f u + inc f u)%N.

Lemma ls_push D R v x f u : v < length R -> D v (rl R v) = false ->
  ls D (push R v x) f u = (ls D R f u + if Nat.eqb u v then f (fst (fst x)) (snd (fst x)) else 0)%N.
Proof.
  intros H HD. unfold ls. rewrite rl_push by auto. destruct (Nat.eqb_spec u v) as [->|N].
  - rewrite bsum_S. f_equal.
    + apply bsum_ext. intros i Hi. unfold val. rewrite slot_push by auto. destruct (Nat.eqb_spec i (rl R v)); [lia|].
      rewrite andb_false_r. reflexivity.
    + unfold val. rewrite slot_push by auto. rewrite !Nat.eqb_refl, HD. destruct x as [[? ?] ?]. reflexivity.
  - rewrite N.add_0_r. apply bsum_ext. intros i Hi. unfold val. rewrite slot_push by auto. destruct (Nat.eqb_spec u v); [congruence|].
    reflexivity.
Qed.

Lemma new_edge_rows R s t w : valid_rows R -> s < length R -> t < length R -> s <> t ->
  let R' := push (push R s (t, w, rl R t)) t (s, w, rl R s) in
  valid_rows R' /\ changed R R' (fun _ _ => 0%N) (pairf s t w).
Proof.
  intros V Hs Ht N R'. set (R1 := push R s (t, w, rl R t)) in R'.
  assert (N1 : length R1 = length R) by apply length_push.
  assert (Lt : rl R1 t = rl R t) by (unfold R1; rewrite rl_push by auto; destruct (Nat.eqb_spec t s); [congruence|reflexivity]).
  assert (SL : forall a b, slot R' a b = if (a =? t) && (b =? rl R t) then Some (s, w, rl R s) else
                if (a =? s) && (b =? rl R s) then Some (t, w, rl R t) else slot R a b).
  { intros a b. unfold R'. rewrite slot_push by lia. rewrite Lt. unfold R1. rewrite slot_push by auto. reflexivity. }
  assert (NR : length R' = length R) by (unfold R'; rewrite length_push; auto).
  split; [|split].
  - intros v e t' w' r' S. fold (slot R' v e) in S. fold (slot R' t' r'). rewrite NR. rewrite SL in S.
    destruct (Nat.eqb_spec v t) as [->|Nv]; cbn in S.
    + destruct (Nat.eqb_spec e (rl R t)) as [->|Ne].
      * injection S as <- <- <-. split; [auto|]. split; [auto|]. rewrite SL. destruct (Nat.eqb_spec s t); [congruence|].
        rewrite !Nat.eqb_refl. reflexivity.
      * destruct (Nat.eqb_spec t s); [congruence|]. cbn in S. destruct (V _ _ _ _ _ S) as [A [B C]]. split; [auto|]. split; [auto|].
        fold (slot R t' r') in C. destruct (slot_lt _ _ _ _ C) as [_ Lr]. rewrite SL.
        destruct (Nat.eqb_spec t' t) as [->|]; [congruence|]. cbn. destruct (Nat.eqb_spec t' s) as [->|]; [|exact C].
        destruct (Nat.eqb_spec r' (rl R s)); [lia|exact C].
    + destruct (Nat.eqb_spec v s) as [->|Nvs]; cbn in S.
      * destruct (Nat.eqb_spec e (rl R s)) as [->|Ne].
        -- injection S as <- <- <-. split; [auto|]. split; [auto|]. rewrite SL, !Nat.eqb_refl. reflexivity.
        -- destruct (V _ _ _ _ _ S) as [A [B C]]. split; [auto|]. split; [auto|].
           fold (slot R t' r') in C. destruct (slot_lt _ _ _ _ C) as [_ Lr]. rewrite SL.
           destruct (Nat.eqb_spec t' s) as [->|]; [congruence|]. cbn. destruct (Nat.eqb_spec t' t) as [->|]; [|exact C].
           destruct (Nat.eqb_spec r' (rl R t)); [lia|exact C].
      * destruct (V _ _ _ _ _ S) as [A [B C]]. split; [auto|]. split; [auto|].
        fold (slot R t' r') in C. destruct (slot_lt _ _ _ _ C) as [_ Lr]. rewrite SL.
        destruct (Nat.eqb_spec t' t) as [->|]; cbn.
        -- destruct (Nat.eqb_spec r' (rl R t)); [lia|]. destruct (Nat.eqb_spec t s); [congruence|exact C].
        -- destruct (Nat.eqb_spec t' s) as [->|]; [|exact C]. destruct (Nat.eqb_spec r' (rl R s)); [lia|exact C].
  - exact NR.
  - intros f u. unfold R'. rewrite ls_push by (lia || reflexivity). unfold R1. rewrite ls_push by (lia || reflexivity). unfold pairf. cbn [fst snd]. lia.
Qed.

(** changing the weight of both halves of a live edge *)
Definition setw (R : list (list half)) v e t r (w : N) : list (list half) := rset (rset R v e (t, w, r)) t r (v, w, e).

Lemma setw_ok D R v e t w0 r w : linked D R -> slot R v e = Some (t, w0, r) -> D v e = false ->
  length (setw R v e t r w) = length R /\ (forall a, rl (setw R v e t r w) a = rl R a) /\
  (forall a b, slot (setw R v e t r w) a b = if (a =? v) && (b =? e) then Some (t, w, r)
               else if (a =? t) && (b =? r) then Some (v, w, e) else slot R a b) /\
  linked D (setw R v e t r w) /\
  forall f u, (ls D (setw R v e t r w) f u + pairf v t w0 f u = ls D R f u + pairf v t w f u)%N.
Proof.
  intros L Sv Dv. destruct (L v e t w0 r Sv Dv) as [Ht [Nt [Dt St]]].
  destruct (slot_lt _ _ _ _ Sv) as [Hv He]. destruct (slot_lt _ _ _ _ St) as [_ Hr].
  assert (SL : forall a b, slot (setw R v e t r w) a b = if (a =? v) && (b =? e) then Some (t, w, r)
               else if (a =? t) && (b =? r) then Some (v, w, e) else slot R a b).
  { intros a b. unfold setw. rewrite slot_rset by (rewrite rl_rset; auto). rewrite slot_rset by auto.
    destruct (Nat.eqb_spec a t) as [->|]; cbn; [|destruct ((a =? v) && (b =? e)); reflexivity].
    destruct (Nat.eqb_spec t v); [congruence|]. cbn. reflexivity. }
  assert (LR : forall a, rl (setw R v e t r w) a = rl R a) by (intro a; unfold setw; rewrite !rl_rset; reflexivity).
  split; [unfold setw; rewrite !length_rset; reflexivity|]. split; [auto|]. split; [auto|]. split.
  - intros a b t' w' r' S Da. replace (length (setw R v e t r w)) with (length R) by (unfold setw; rewrite !length_rset; reflexivity).
    rewrite SL in S.
    destruct ((a =? v) && (b =? e)) eqn:E1.
    + apply andb_true_iff in E1. destruct E1 as [E1 E2]. apply Nat.eqb_eq in E1, E2. subst a b. injection S as <- <- <-.
      split; [auto|]. split; [auto|]. split; [auto|]. rewrite SL. destruct (Nat.eqb_spec t v); [congruence|]. cbn.
      rewrite !Nat.eqb_refl. reflexivity.
    + destruct ((a =? t) && (b =? r)) eqn:E3.
      * apply andb_true_iff in E3. destruct E3 as [E3 E4]. apply Nat.eqb_eq in E3, E4. subst a b. injection S as <- <- <-.
        split; [auto|]. split; [auto|]. split; [auto|]. rewrite SL, !Nat.eqb_refl. reflexivity.
      * destruct (L a b t' w' r' S Da) as [A [B [C E]]]. split; [auto|]. split; [auto|]. split; [auto|]. rewrite SL.
        destruct ((t' =? v) && (r' =? e)) eqn:E4.
        -- apply andb_true_iff in E4. destruct E4 as [E4 E5]. apply Nat.eqb_eq in E4, E5. subst t' r'. rewrite Sv in E.
           injection E as -> -> ->. rewrite !Nat.eqb_refl in E3. discriminate.
        -- destruct ((t' =? t) && (r' =? r)) eqn:E5; [|auto].
           apply andb_true_iff in E5. destruct E5 as [E5 E6]. apply Nat.eqb_eq in E5, E6. subst t' r'. rewrite St in E.
           injection E as -> -> ->. rewrite !Nat.eqb_refl in E1. discriminate.
  - intros f u. unfold pairf. destruct (Nat.eqb_spec u v) as [->|Nu].
    + destruct (Nat.eqb_spec v t); [congruence|]. pose proof (ls_point D D R (setw R v e t r w) f v e (LR v) He) as P.
      rewrite (val_live D R f v e t w0 r Sv Dv) in P.
      rewrite (val_live D (setw R v e t r w) f v e t w r) in P; [|rewrite SL, !Nat.eqb_refl; reflexivity|auto].
      rewrite !N.add_0_r. apply P. intros i _ Ni. unfold val. rewrite SL. destruct (Nat.eqb_spec i e); [congruence|].
      rewrite andb_false_r. destruct (Nat.eqb_spec v t); [congruence|]. reflexivity.
    + destruct (Nat.eqb_spec u t) as [->|Nut].
      * pose proof (ls_point D D R (setw R v e t r w) f t r (LR t) Hr) as P.
        rewrite (val_live D R f t r v w0 e St Dt) in P.
        rewrite (val_live D (setw R v e t r w) f t r v w e) in P;
          [|rewrite SL, !Nat.eqb_refl; destruct (Nat.eqb_spec t v); [congruence|reflexivity]|auto].
        rewrite !N.add_0_l. apply P. intros i _ Ni. unfold val. rewrite SL. destruct (Nat.eqb_spec i r); [congruence|].
        rewrite andb_false_r. destruct (Nat.eqb_spec t v); [congruence|]. reflexivity.
      * rewrite !N.add_0_r. apply ls_ext; [auto|]. intros i _. unfold val. rewrite SL.
        destruct (Nat.eqb_spec u v); [congruence|]. destruct (Nat.eqb_spec u t); [congruence|]. reflexivity.
Qed.

(** popping after relinking (deleteEdge) equals internalDeleteEdge *)
Lemma relink_pop D R v e : linked D R -> e < rl R v -> (S e < rl R v -> D v (rl R v - 1) = false) ->
  let row := nth v R [] in
  match (if S e <? length row then
           let x := nth (length row - 1) row (0, 0%N, 0) in
           set_rev (upd R v (upd row e x)) (fst (fst x)) (snd x) e
         else Some R) with
  | None => None
  | Some R1 => Some (upd R1 v (removelast (nth v R1 [])))
  end = internal_delete R v e.
Proof.
  intros L He Lv row. pose proof (rl_lt R v e He) as Hv. unfold internal_delete. fold row. change (length row) with (rl R v).
  destruct (Nat.ltb_spec (S e) (rl R v)) as [Lt|Ge].
  - set (last := rl R v - 1) in *. destruct (slot_some R v last ltac:(unfold last; lia)) as (t & w & r & Sl).
    assert (Nl : nth last row (0, 0%N, 0) = (t, w, r)).
    { unfold slot in Sl. apply nth_error_nth with (d := (0, 0%N, 0)) in Sl. auto. }
    rewrite Nl. cbn [fst snd]. destruct (L v last t w r Sl (Lv Lt)) as [Ht [Ntv [Dt St]]].
    unfold set_rev. rewrite !slot_upd by auto. destruct (Nat.eqb_spec t v); [congruence|]. rewrite St. f_equal.
    unfold rset. rewrite !(nth_upd_neq _ _ _ _ _ n). rewrite (nth_upd_neq (upd R v _) t _ v) by auto. rewrite nth_upd_eq by auto.
    rewrite (upd_comm (upd R v _) t v) by auto. f_equal. rewrite upd_upd. reflexivity.
  - destruct (Nat.eqb_spec (rl R v) 0); [lia|]. reflexivity.
Qed.

(** * the graph object *)
Definition mvalid (G : mg) : Prop :=
  valid_rows (m_rows G) /\ degrees_exact (m_rows G) (m_deg G) /\ count_exact (m_rows G) (m_ne G).

(** the weight function after removing weight dec and adding weight inc between v and t *)
Definition wstep (W W' : wfun) (n v t : nat) (dec inc : N) : Prop :=
  forall a b, a < n -> b < n ->
    (W' a b + (if ((Nat.eqb a v && Nat.eqb b t) || (Nat.eqb a t && Nat.eqb b v))%bool then dec else 0)
     = W a b + (if ((Nat.eqb a v && Nat.eqb b t) || (Nat.eqb a t && Nat.eqb b v))%bool then inc else 0))%N.

Lemma pairf_fw v t w a b : v <> t ->
  pairf v t w (fw b) a = if ((a =? v) && (b =? t)) || ((a =? t) && (b =? v)) then w else 0%N.
Proof.
  intro N. unfold pairf, fw. destruct (Nat.eqb_spec a v) as [->|].
  - destruct (Nat.eqb_spec v t); [congruence|]. cbn. rewrite orb_false_r, (Nat.eqb_sym t b). destruct (b =? t); lia.
  - cbn. rewrite (Nat.eqb_sym v b). destruct (a =? t); cbn; [|lia]. destruct (b =? v); lia.
Qed.

Lemma changed_wstep R R' v t w0 w (dec inc : (nat -> N -> N) -> nat -> N) : v <> t -> changed R R' dec inc ->
  (forall f u, dec f u = pairf v t w0 f u) -> (forall f u, inc f u = pairf v t w f u) ->
  wstep (wt (adj R)) (wt (adj R')) (length R) v t w0 w.
Proof.
  intros N [_ C] Ed Ei a b _ _. rewrite !wt_ls. specialize (C (fw b) a). rewrite Ed, Ei, !pairf_fw in C by auto. exact C.
Qed.

Lemma set_weight_ok G v e t w0 r w : mvalid G -> slot (m_rows G) v e = Some (t, w0, r) ->
  exists G', m_set_weight G v e w = Some G' /\ mvalid G' /\ m_n G' = m_n G /\
    wstep (wt (adj (m_rows G))) (wt (adj (m_rows G'))) (m_n G) v t w0 w /\
    m_pos G' = m_pos G /\ m_cont G' = m_cont G.
Proof.
  intros [V [DG CN]] S. set (R := m_rows G) in *. pose proof (proj2 (linked_valid R) V) as L.
  destruct (L v e t w0 r S eq_refl) as [Ht [Nt [_ St]]]. destruct (slot_lt _ _ _ _ S) as [Hv He]. destruct (slot_lt _ _ _ _ St) as [_ Hr].
  destruct (setw_ok nodead R v e t w0 r w L S eq_refl) as (N' & RL & SL & L' & C).
  unfold m_set_weight. fold R. rewrite S. unfold set_wgt. rewrite S.
  rewrite slot_rset by auto. destruct (Nat.eqb_spec t v); [congruence|]. cbn [andb]. rewrite St.
  fold (setw R v e t r w). eexists. split; [reflexivity|]. cbn.
  apply deg_ls in DG. destruct DG as [LD DG]. apply cnt_ls in CN.
  split; [split; [|split]|split; [auto|split; [|split; reflexivity]]]; cbn.
  - apply linked_valid. auto.
  - apply deg_ls. rewrite !upd_length. split; [congruence|]. rewrite N'. intros x Hx. specialize (C fd x). unfold pairf, fd in C.
    destruct (Nat.eqb_spec x t) as [Ex|Nx]; [subst x|].
    + destruct (Nat.eqb_spec t v); [congruence|]. rewrite nth_upd_eq by (rewrite upd_length; lia).
      rewrite nth_upd_neq by auto. rewrite DG by auto. unfold fd in *. lia.
    + rewrite nth_upd_neq by auto. destruct (Nat.eqb_spec x v) as [Ex|Nv]; [subst x|].
      * rewrite nth_upd_eq by lia. rewrite DG by auto. unfold fd in *. lia.
      * rewrite nth_upd_neq by auto. rewrite DG by auto. unfold fd in *. lia.
  - apply cnt_ls. rewrite CN, N'. assert (E : (bsum (length R) (ls nodead (setw R v e t r w) fc) + 2 = bsum (length R) (ls nodead R fc) + 2)%N); [|lia].
    rewrite <- (pairf_count (length R) v t w0) at 1 by auto. rewrite <- (pairf_count (length R) v t w) by auto.
    rewrite <- !bsum_add. apply bsum_ext. intros i _. apply C.
  - apply changed_wstep with (dec := pairf v t w0) (inc := pairf v t w); auto. split; auto.
Qed.

Lemma new_edge_ok G s t w : mvalid G -> s < t -> t < m_n G ->
  exists G', m_new_edge G s t w = Some G' /\ mvalid G' /\ m_n G' = m_n G /\
    wstep (wt (adj (m_rows G))) (wt (adj (m_rows G'))) (m_n G) s t 0 w /\ m_pos G' = m_pos G /\ m_cont G' = m_cont G.
Proof.
  intros [V [DG CN]] Hst Ht. unfold m_new_edge. destruct (Nat.ltb_spec s t); [|lia]. destruct (Nat.ltb_spec t (m_n G)); [|lia].
  set (R := m_rows G) in *. unfold m_n in *. fold R in Ht |- *.
  destruct (new_edge_rows R s t w V ltac:(lia) Ht ltac:(lia)) as [V' C]. unfold rl in V', C.
  eexists. split; [reflexivity|]. cbn. set (R' := push (push R s (t, w, length (nth t R []))) t (s, w, length (nth s R []))) in *.
  apply deg_ls in DG. destruct DG as [LD DG]. apply cnt_ls in CN. pose proof C as C0. destruct C as [N' C].
  split; [split; [auto|split]|split; [auto|split; [|split; reflexivity]]]; cbn; fold R'.
  - apply deg_ls. rewrite !upd_length. split; [congruence|]. rewrite N'. intros x Hx. specialize (C fd x). unfold pairf, fd in C.
    destruct (Nat.eqb_spec x t) as [Ex|Nx]; [subst x|].
    + destruct (Nat.eqb_spec t s); [lia|]. rewrite nth_upd_eq by (rewrite upd_length; lia).
      rewrite nth_upd_neq by auto. rewrite DG by auto. unfold fd in *. lia.
    + rewrite nth_upd_neq by auto. destruct (Nat.eqb_spec x s) as [Ex|Nv]; [subst x|].
      * rewrite nth_upd_eq by lia. rewrite DG by auto. unfold fd in *. lia.
      * rewrite nth_upd_neq by auto. rewrite DG by auto. unfold fd in *. lia.
  - apply cnt_ls. rewrite CN, N'. rewrite <- (pairf_count (length R) s t w) by lia.
    rewrite <- bsum_add. apply bsum_ext. intros i _. specialize (C fc i). lia.
  - intros a b _ _. rewrite !wt_ls. specialize (C (fw b) a). rewrite pairf_fw in C by lia.
    destruct (((a =? s) && (b =? t)) || ((a =? t) && (b =? s))); lia.
Qed.

Lemma delete_edge_rows R v e t w r : linked nodead R -> slot R v e = Some (t, w, r) ->
  exists R1 R2, internal_delete R v e = Some R1 /\ internal_delete R1 t r = Some R2 /\
    linked (fun a b => (a =? t) && (b =? r)) R1 /\ r < rl R1 t /\
    linked nodead R2 /\ length R2 = length R /\ forall f u, (ls nodead R2 f u + pairf v t w f u = ls nodead R f u)%N.
Proof.
  intros L S. destruct (L v e t w r S eq_refl) as [Ht [Nt [_ St]]]. destruct (slot_lt _ _ _ _ S) as [Hv He]. destruct (slot_lt _ _ _ _ St) as [_ Hr].
  destruct (kill_ok nodead R v e t w r L S eq_refl) as [L1 C1]. set (D1 := dadd (dadd nodead v e) t r) in *.
  destruct (idel_ok D1 R v e L1 He) as (R1 & E1 & N1 & RL1 & _ & _ & LK1 & V1).
  { unfold D1, dadd, nodead. rewrite !Nat.eqb_refl. reflexivity. }
  { intro Hl. unfold D1, dadd, nodead. destruct (Nat.eqb_spec (rl R v - 1) e); [lia|]. destruct (Nat.eqb_spec v t); [congruence|].
    rewrite andb_false_r. reflexivity. }
  assert (H1 : forall a b, dsub D1 v e a b = (a =? t) && (b =? r)).
  { intros a b. unfold dsub, D1, dadd, nodead. cbn. destruct (Nat.eqb_spec a v) as [->|]; cbn.
    - destruct (Nat.eqb_spec v t); [congruence|]. cbn. destruct (b =? e); reflexivity.
    - rewrite andb_true_r. reflexivity. }
  assert (LK1' : linked (fun a b => (a =? t) && (b =? r)) R1) by (apply linked_ext with (D := dsub D1 v e); auto).
  assert (Hr1 : r < rl R1 t) by (rewrite RL1; destruct (Nat.eqb_spec t v); [congruence|auto]).
  destruct (idel_ok _ R1 t r LK1' Hr1) as (R2 & E2 & N2 & RL2 & _ & _ & LK2 & V2).
  { rewrite !Nat.eqb_refl. reflexivity. }
  { intro Hl. destruct (Nat.eqb_spec (rl R1 t - 1) r); [lia|]. apply andb_false_r. }
  assert (H2 : forall a b, dsub (fun a b => (a =? t) && (b =? r)) t r a b = nodead a b).
  { intros a b. unfold dsub, nodead. destruct ((a =? t) && (b =? r)); reflexivity. }
  exists R1, R2. split; [auto|]. split; [auto|]. split; [auto|]. split; [auto|]. split.
  { apply linked_ext with (D := dsub (fun a b => (a =? t) && (b =? r)) t r); auto. }
  split; [congruence|]. intros f u.
  assert (X2 : ls nodead R2 f u = ls (fun a b => (a =? t) && (b =? r)) R1 f u).
  { rewrite <- V2. apply ls_ext; [reflexivity|]. intros i _. unfold val. rewrite H2. reflexivity. }
  assert (X1 : ls (fun a b => (a =? t) && (b =? r)) R1 f u = ls D1 R f u).
  { rewrite <- V1. apply ls_ext; [reflexivity|]. intros i _. unfold val. rewrite H1. reflexivity. }
  rewrite C1, X2, X1. unfold pairf. lia.
Qed.

Lemma delete_edge_ok G v e t w r : mvalid G -> slot (m_rows G) v e = Some (t, w, r) ->
  exists G', m_delete_edge G v e = Some G' /\ mvalid G' /\ m_n G' = m_n G /\
    wstep (wt (adj (m_rows G))) (wt (adj (m_rows G'))) (m_n G) v t w 0 /\ m_pos G' = m_pos G /\ m_cont G' = m_cont G.
Proof.
  intros [V [DG CN]] Sv. set (R := m_rows G) in *. pose proof (proj2 (linked_valid R) V) as L.
  destruct (L v e t w r Sv eq_refl) as [Ht [Nt [_ St]]]. destruct (slot_lt _ _ _ _ Sv) as [Hv He].
  destruct (delete_edge_rows R v e t w r L Sv) as (R1 & R2 & E1 & E2 & LK1 & Hr1 & LK2 & N2 & C).
  unfold m_delete_edge. fold R. rewrite Sv.
  pose proof (relink_pop nodead R v e L He (fun _ => eq_refl)) as P. cbn zeta in P. rewrite E1 in P.
  destruct (if S e <? length (nth v R []) then _ else _) as [Ra|]; [|discriminate]. injection P as ->.
  pose proof (relink_pop _ R1 t r LK1 Hr1) as P. cbn zeta in P. rewrite E2 in P.
  specialize (P ltac:(intro Hl; destruct (Nat.eqb_spec (rl R1 t - 1) r); [lia|apply andb_false_r])).
  assert (Hz : length (nth t R1 []) =? 0 = false) by (apply Nat.eqb_neq; unfold rl in Hr1; lia). rewrite Hz.
  destruct (if S r <? length (nth t R1 []) then _ else _) as [Rb|]; [|discriminate]. injection P as ->.
  eexists. split; [reflexivity|]. cbn.
  apply deg_ls in DG. destruct DG as [LD DG]. apply cnt_ls in CN.
  split; [split; [apply linked_valid; auto|split]|split; [exact N2|split; [|split; reflexivity]]]; cbn.
  - apply deg_ls. unfold deg_sub. rewrite !upd_length. split; [congruence|]. rewrite N2. intros x Hx. specialize (C fd x). unfold pairf, fd in C.
    destruct (Nat.eqb_spec x t) as [Ex|Nx]; [subst x|].
    + destruct (Nat.eqb_spec t v); [lia|]. rewrite nth_upd_eq by (rewrite upd_length; lia).
      rewrite nth_upd_neq by auto. rewrite DG by auto. unfold fd in *. lia.
    + rewrite nth_upd_neq by auto. destruct (Nat.eqb_spec x v) as [Ex|Nv]; [subst x|].
      * rewrite nth_upd_eq by lia. rewrite DG by auto. unfold fd in *. lia.
      * rewrite nth_upd_neq by auto. rewrite DG by auto. unfold fd in *. lia.
  - apply cnt_ls. rewrite CN, N2. assert (E : (bsum (length R) (ls nodead R2 fc) + 2 = bsum (length R) (ls nodead R fc))%N); [|lia].
    rewrite <- (pairf_count (length R) v t w) by auto.
    rewrite <- !bsum_add. apply bsum_ext. intros i _. apply C.
  - intros a b _ _. rewrite !wt_ls. specialize (C (fw b) a). rewrite pairf_fw in C by auto.
    destruct (((a =? v) && (b =? t)) || ((a =? t) && (b =? v))); lia.
Qed.
