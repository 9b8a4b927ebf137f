(* P_Mutable5.v - proofs about mutable_graph: the first and last phase of contractVertexSet. *)
From Verif Require Import SpecCut P_Cut P_Mutable P_Mutable2 P_Mutable3 P_Mutable4 M_Mutable.

Lemma filter_pos {A} (p : A -> bool) (l : list A) : forall j h, nth_error l j = Some h -> p h = true ->
  nth_error (filter p l) (length (filter p (firstn j l))) = Some h.
Proof.
  induction l as [|x l IH]; intros [|j] h H P; try discriminate.
  - injection H as ->. cbn. rewrite P. reflexivity.
  - cbn. cbn in H. destruct (p x); cbn; apply IH; auto.
Qed.
Lemma filter_pos_inv {A} (p : A -> bool) (l : list A) : forall i h, nth_error (filter p l) i = Some h ->
  exists j, nth_error l j = Some h /\ p h = true /\ i = length (filter p (firstn j l)).
Proof.
  induction l as [|x l IH]; intros i h H; [destruct i; discriminate|]. cbn in H. destruct (p x) eqn:P.
  - destruct i as [|i].
    + injection H as ->. exists 0. auto.
    + destruct (IH i h H) as [j [A1 [B C]]]. exists (S j). split; [auto|]. split; [auto|]. cbn. rewrite P. cbn. congruence.
  - destruct (IH i h H) as [j [A1 [B C]]]. exists (S j). split; [auto|]. split; [auto|]. cbn. rewrite P. auto.
Qed.
Lemma firstn_S_nth {A} (l : list A) k h : nth_error l k = Some h -> firstn (S k) l = firstn k l ++ [h].
Proof. revert k; induction l as [|x l IH]; intros [|k] H; try discriminate; [injection H as ->; reflexivity|]. cbn. f_equal. apply IH. auto. Qed.

Section Split.
Variable inS : nat -> bool.
Variable first : nat.
Variable R : list (list half).
Hypothesis first_in : inS first = true.
Hypothesis valid : linked nodead R.
Hypothesis Hf : first < length R.

Let row := nth first R [].
Definition keeph (h : half) : bool := negb (inS (fst (fst h))).
Definition idx (k : nat) : nat := length (filter keeph (firstn k row)).
Definition relk (k a b : nat) (h : half) : half :=
  if (fst (fst h) =? first) && negb (inS a) && (snd h <? k) then (fst h, idx (snd h)) else h.

Lemma split_first_ok n0 cnt : forall k edges m R1 deg ne,
  k + cnt = rl R first -> edges = filter keeph (firstn k row) -> length m = n0 -> length R = n0 ->
  (forall t r i, nth t m None = Some (r, i) -> exists w, nth_error edges i = Some (t, w, r)) ->
  length R1 = length R -> (forall a, rl R1 a = rl R a) -> (forall a b, slot R1 a b = option_map (relk k a b) (slot R a b)) ->
  exists m' R' deg', split_first cnt inS first k edges m (R1, deg, ne) =
      Some (filter keeph row, m', (R', deg', (ne - N.of_nat (length (filter (fun h => negb (keeph h)) (skipn k row))))%N)) /\
    length m' = n0 /\ (forall t r i, nth t m' None = Some (r, i) -> exists w, nth_error (filter keeph row) i = Some (t, w, r)) /\
    length R' = length R /\ (forall a, rl R' a = rl R a) /\ (forall a b, slot R' a b = option_map (relk (rl R first) a b) (slot R a b)) /\
    length deg' = length deg /\ (forall u, u <> first -> nth u deg' 0%N = nth u deg 0%N) /\
    (first < length deg -> nth first deg' 0%N = (nth first deg 0 - sumN (fun h => snd (fst h)) (filter (fun h => negb (keeph h)) (skipn k row)))%N).
Proof.
  induction cnt as [|cnt IH]; intros k edges m R1 deg ne Hk Ee Lm Ln Mi N1 RL1 SL1.
  - assert (K : k = length row) by (unfold rl in Hk; fold row in Hk; lia).
    assert (FE : edges = filter keeph row) by (rewrite Ee, K, firstn_all; reflexivity).
    assert (SE : skipn k row = []) by (rewrite K; apply skipn_all).
    cbn [split_first]. rewrite SE. cbn [filter length sumN]. exists m, R1, deg. rewrite <- FE.
    split; [replace (ne - N.of_nat 0)%N with ne by lia; reflexivity|]. split; [auto|]. split; [auto|]. split; [auto|]. split; [auto|].
    split; [intros a b; rewrite SL1; f_equal; f_equal; lia|]. split; [auto|]. split; [auto|]. intros _. lia.
  - cbn [split_first].
    destruct (slot_some R first k ltac:(lia)) as (t & w & r & Sk).
    assert (S1k : slot R1 first k = Some (t, w, r)).
    { rewrite SL1, Sk. cbn. unfold relk. cbn. rewrite first_in. cbn. rewrite andb_false_r. reflexivity. }
    rewrite S1k. assert (Nk : nth_error row k = Some (t, w, r)) by exact Sk.
    assert (SKP : skipn k row = (t, w, r) :: skipn (S k) row).
    { clear - Nk. revert k Nk. induction row as [|x l IHl]; intros [|k] H; try discriminate; [injection H as ->; reflexivity|]. cbn. apply IHl. auto. }
    assert (REL : forall R2, (inS t = true -> R2 = R1) ->
      (inS t = false -> forall a b, slot R2 a b = if (a =? t) && (b =? r) then Some (first, w, idx k) else slot R1 a b) ->
      forall a b, slot R2 a b = option_map (relk (S k) a b) (slot R a b)).
    { intros R2 Hin Hout a b. destruct (valid first k t w r Sk eq_refl) as [Ht [Nt [_ St]]].
      assert (EQ : forall h, slot R a b = Some h -> ~ (inS t = false /\ a = t /\ b = r) -> relk (S k) a b h = relk k a b h).
      { intros [[t1 w1] r1] Q Nn. unfold relk. cbn [fst snd]. destruct (Nat.eqb_spec t1 first) as [->|]; [|reflexivity].
        destruct (inS a) eqn:Ia; [reflexivity|]. cbn [negb andb].
        destruct (Nat.eq_dec r1 k) as [->|Nr].
        - destruct (valid a b first w1 k Q eq_refl) as [_ [_ [_ X]]]. rewrite Sk in X. injection X as -> -> ->. exfalso. apply Nn. auto.
        - destruct (Nat.ltb_spec r1 k), (Nat.ltb_spec r1 (S k)); try reflexivity; lia. }
      destruct (inS t) eqn:It.
      - rewrite Hin by auto. rewrite SL1. destruct (slot R a b) as [h|] eqn:Q; [|reflexivity]. cbn. f_equal. symmetry. apply EQ; auto.
        intros [X _]. discriminate.
      - rewrite Hout by auto. destruct ((a =? t) && (b =? r)) eqn:E1.
        + apply andb_true_iff in E1. destruct E1 as [E1 E2]. apply Nat.eqb_eq in E1, E2. subst a b. rewrite St. cbn. f_equal. unfold relk. cbn [fst snd].
          rewrite Nat.eqb_refl, It. cbn [negb andb]. destruct (Nat.ltb_spec k (S k)); [reflexivity|lia].
        + rewrite SL1. destruct (slot R a b) as [h|] eqn:Q; [|reflexivity]. cbn. f_equal. symmetry. apply EQ; auto.
          intros [_ [-> ->]]. rewrite !Nat.eqb_refl in E1. discriminate. }
    destruct (inS t) eqn:It.
    + assert (Kp : keeph (t, w, r) = false) by (unfold keeph; cbn; rewrite It; reflexivity).
      destruct (IH (S k) edges m R1 (deg_sub deg first w) (ne - 1)%N) as (m' & R' & deg' & E & X1 & X2 & X3 & X4 & X5 & X6 & X7 & X8); auto; try lia.
      { rewrite (firstn_S_nth _ _ _ Nk), filter_app. cbn. rewrite Kp, app_nil_r. auto. }
      { apply REL; [auto|congruence]. }
      exists m', R', deg'. unfold deg_sub in *. rewrite upd_length in *.
      split; [rewrite E, SKP; cbn [filter]; rewrite Kp; cbn [negb length]; do 3 f_equal; lia|]. split; [auto|]. split; [auto|]. split; [auto|]. split; [auto|].
      split; [auto|]. split; [auto|]. split; [intros u Nu; rewrite X7 by auto; apply nth_upd_neq; auto|].
      intro Hd. rewrite X8 by auto. rewrite nth_upd_eq by auto. rewrite SKP. cbn [filter]. rewrite Kp. cbn [negb sumN]. cbn [fst snd]. lia.
    + assert (Kp : keeph (t, w, r) = true) by (unfold keeph; cbn; rewrite It; reflexivity).
      destruct (valid first k t w r Sk eq_refl) as [Ht [Nt [_ St]]].
      assert (S1t : exists r0, slot R1 t r = Some (first, w, r0)).
      { rewrite SL1, St. cbn. unfold relk. cbn. destruct (_ && _); eauto. }
      destruct S1t as [r0 S1t]. unfold set_rev. rewrite S1t.
      assert (Hr1 : r < rl R1 t) by apply (slot_lt _ _ _ _ S1t).
      set (R2 := rset R1 t r (first, w, length edges)).
      destruct (IH (S k) (edges ++ [(t, w, r)]) (match nth t m None with None => upd m t (Some (r, length edges)) | Some _ => m end) R2 deg ne)
        as (m' & R' & deg' & E & X1 & X2 & X3 & X4 & X5 & X6 & X7 & X8); auto; try lia.
      { rewrite (firstn_S_nth _ _ _ Nk), filter_app. cbn. rewrite Kp. subst edges. reflexivity. }
      { destruct (nth t m None); rewrite ?upd_length; auto. }
      { intros t' r' i Hm.
        assert (HC : nth t' m None = Some (r', i) \/ (t' = t /\ r' = r /\ i = length edges)).
        { destruct (nth t m None) eqn:Em; [auto|]. destruct (Nat.eq_dec t' t) as [->|]; [|rewrite nth_upd_neq in Hm; auto].
          rewrite nth_upd_eq in Hm by lia. injection Hm as <- <-. auto. }
        destruct HC as [HC|[-> [-> ->]]].
        - destruct (Mi _ _ _ HC) as [w' Hw]. exists w'. rewrite nth_error_app1; [auto|]. apply nth_error_Some. congruence.
        - exists w. rewrite nth_error_app2, Nat.sub_diag by lia. reflexivity. }
      { unfold R2. rewrite length_rset. auto. }
      { intro a. unfold R2. rewrite rl_rset. auto. }
      { apply REL; [congruence|]. intros _ a b. unfold R2. rewrite slot_rset by auto. subst edges. reflexivity. }
      exists m', R', deg'.
      split; [rewrite E, SKP; cbn [filter]; rewrite Kp; cbn [negb]; reflexivity|]. split; [auto|]. split; [auto|]. split; [auto|]. split; [auto|].
      split; [auto|]. split; [auto|]. split; [auto|].
      intro Hd. rewrite X8 by auto. rewrite SKP. cbn [filter]. rewrite Kp. cbn [negb]. reflexivity.
Qed.

(** dead half edges: those inside the set *)
Definition D0 : dead := fun a b => inS a && into inS (tgt_of R) a b.
Definition D1 : dead := fun a b => negb (a =? first) && D0 a b.

Lemma D0_slot a b t w r : slot R a b = Some (t, w, r) -> D0 a b = inS a && inS t.
Proof. intro H. unfold D0, into, tgt_of. rewrite H. reflexivity. Qed.

Lemma D0_linked : linked D0 R.
Proof.
  intros v e t w r S De. destruct (valid v e t w r S eq_refl) as [A [B [_ C]]]. split; [auto|]. split; [auto|]. split; [|auto].
  rewrite (D0_slot _ _ _ _ _ C). rewrite (D0_slot _ _ _ _ _ S) in De. rewrite andb_comm. auto.
Qed.

Lemma split_linked R' : length R' = length R -> (forall a, rl R' a = rl R a) ->
  (forall a b, slot R' a b = option_map (relk (rl R first) a b) (slot R a b)) ->
  let R1 := upd R' first (filter keeph row) in
  linked D1 R1 /\ (forall f u, ls D1 R1 f u = ls D0 R f u) /\
  (forall a b, a <> first -> tgt_of R1 a b = tgt_of R a b) /\ (forall a, a <> first -> rl R1 a = rl R a) /\ length R1 = length R.
Proof.
  intros N' RL' SL' R1.
  assert (N1 : length R1 = length R) by (unfold R1; rewrite upd_length; auto).
  assert (S1f : forall b, slot R1 first b = nth_error (filter keeph row) b) by (intro b; unfold R1; rewrite slot_upd by lia; rewrite Nat.eqb_refl; reflexivity).
  assert (S1 : forall a b, a <> first -> slot R1 a b = option_map (relk (rl R first) a b) (slot R a b)).
  { intros a b Na. unfold R1. rewrite slot_upd by lia. destruct (Nat.eqb_spec a first); [congruence|]. apply SL'. }
  assert (RK : forall a b t w r, slot R a b = Some (t, w, r) -> relk (rl R first) a b (t, w, r) = if (t =? first) && negb (inS a) then (t, w, idx r) else (t, w, r)).
  { intros a b t w r Q. unfold relk. cbn [fst snd]. destruct (Nat.eqb_spec t first) as [->|]; [|reflexivity]. destruct (inS a); [reflexivity|]. cbn [andb negb].
    destruct (valid a b first w r Q eq_refl) as [_ [_ [_ X]]]. apply slot_lt in X. destruct (Nat.ltb_spec r (rl R first)); [reflexivity|lia]. }
  split; [|split; [|split; [|split]]].
  - intros a b t w r Sa Da. rewrite N1. destruct (Nat.eq_dec a first) as [->|Na].
    + rewrite S1f in Sa. destruct (filter_pos_inv _ _ _ _ Sa) as [j [Hj [Pj Ej]]]. change (slot R first j = Some (t, w, r)) in Hj.
      destruct (valid first j t w r Hj eq_refl) as [A [B [_ C]]]. unfold keeph in Pj. cbn in Pj. apply negb_true_iff in Pj.
      split; [auto|]. split; [auto|]. split.
      * unfold D1. rewrite (D0_slot _ _ _ _ _ C), Pj. apply andb_false_r.
      * rewrite S1 by auto. rewrite C. cbn [option_map]. rewrite (RK t r first w j C), Nat.eqb_refl, Pj. cbn. rewrite Ej. reflexivity.
    + assert (Da0 : D0 a b = false) by (unfold D1 in Da; destruct (Nat.eqb_spec a first); [congruence|auto]).
      rewrite S1 in Sa by auto. destruct (slot R a b) as [[[t0 w0] r0]|] eqn:Q; [|discriminate]. cbn [option_map] in Sa.
      rewrite (RK a b t0 w0 r0 Q) in Sa. destruct (valid a b t0 w0 r0 Q eq_refl) as [A [B [_ C]]].
      rewrite (D0_slot _ _ _ _ _ Q) in Da0.
      destruct (Nat.eqb_spec t0 first) as [->|Nt].
      * rewrite first_in, andb_true_r in Da0. rewrite Da0 in Sa. cbn in Sa. injection Sa as <- <- <-.
        split; [auto|]. split; [auto|]. split; [unfold D1; rewrite Nat.eqb_refl; reflexivity|]. rewrite S1f. unfold idx.
        apply filter_pos; [exact C|]. unfold keeph. cbn. rewrite Da0. reflexivity.
      * cbn in Sa. injection Sa as <- <- <-. split; [auto|]. split; [auto|]. split.
        -- unfold D1. rewrite (D0_slot _ _ _ _ _ C), andb_comm, (andb_comm (inS t0)). rewrite Da0. reflexivity.
        -- rewrite S1 by auto. rewrite C. cbn [option_map]. rewrite (RK _ _ _ _ _ C). destruct (Nat.eqb_spec a first); [congruence|]. reflexivity.
  - intros f u. destruct (Nat.eq_dec u first) as [->|Nu].
    + transitivity (sumN (fun h => f (fst (fst h)) (snd (fst h))) (filter keeph row)).
      * rewrite (@sumN_bsum half _ _ (0, 0%N, 0)). unfold ls.
        assert (X : rl R1 first = length (filter keeph row)) by (unfold R1; rewrite rl_upd by lia; rewrite Nat.eqb_refl; reflexivity).
        rewrite X. apply bsum_ext. intros i Hi. unfold val. rewrite S1f. destruct (nth_error (filter keeph row) i) as [[[t w] r]|]; [|reflexivity].
        unfold D1. rewrite Nat.eqb_refl. reflexivity.
      * rewrite sumN_filter, (@sumN_bsum half _ _ (0, 0%N, 0)). unfold ls, rl. fold row. apply bsum_ext. intros i Hi. unfold val.
        change (slot R first i) with (nth_error row i). destruct (nth_error row i) as [[[t w] r]|] eqn:Q; [|reflexivity].
        rewrite (D0_slot first i t w r Q), first_in. unfold keeph. cbn. destruct (inS t); reflexivity.
    + apply ls_ext; [unfold R1; rewrite rl_upd by lia; destruct (Nat.eqb_spec u first); [congruence|]; apply RL'|].
      intros e He. unfold val. rewrite S1 by auto. unfold D1. destruct (Nat.eqb_spec u first); [congruence|]. cbn [negb andb].
      destruct (slot R u e) as [[[t w] r]|]; [|reflexivity]. cbn [option_map]. unfold relk. destruct (_ && _); reflexivity.
  - intros a b Na. unfold tgt_of. rewrite S1 by auto. destruct (slot R a b) as [[[t w] r]|]; [|reflexivity]. cbn. unfold relk. destruct (_ && _); reflexivity.
  - intros a Na. unfold R1. rewrite rl_upd by lia. destruct (Nat.eqb_spec a first); [congruence|]. apply RL'.
  - exact N1.
Qed.
End Split.
