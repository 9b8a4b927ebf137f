(* P_Kernel4.v - flowValue. *)
From Verif Require Import P_Cut P_Mutable P_Mutable7 P_MutableIO P_Multi P_Kernel.

Section FV.
Context (G : mg) (origs sol : list nat) (MV : mvalid G) (LS : length sol = m_n G) (LO : forall t, In t origs -> t < m_n G).
Let n := m_n G.
Let R := m_rows G.
Let W := wt (adj R).
Let f (v : nat) := nth v sol 0.

Lemma fv_row_ok b : forall row acc, (forall t w r, In (t, w, r) row -> t < n) ->
  fv_row row sol b acc = Some (acc + sumN (fun h : half => if Nat.eqb b (f (fst (fst h))) then 0%N else snd (fst h)) row)%N.
Proof.
  induction row as [|[[t w] r] row IH]; intros acc H; cbn [fv_row sumN]; [f_equal; lia|].
  rewrite (nth_error_nth' sol 0) by (rewrite LS; eapply H; left; reflexivity).
  rewrite IH by (intros; eapply H; right; eauto). cbn [fst snd]. unfold f. f_equal. destruct (b =? nth t sol 0); lia.
Qed.

Lemma row_cost v : sumN (fun h : half => if Nat.eqb (f v) (f (fst (fst h))) then 0%N else snd (fst h)) (nth v R []) =
  bsum n (fun t => if Nat.eqb (f v) (f t) then 0%N else W v t).
Proof.
  pose proof (ls_pred R (fun t => negb (Nat.eqb (f v) (f t))) v (proj1 MV)) as H. rewrite ls_nodead in H.
  transitivity (sumN (fun h : half => if negb (Nat.eqb (f v) (f (fst (fst h)))) then snd (fst h) else 0%N) (nth v R [])).
  - apply sumN_ext. intros h _. destruct (f v =? f (fst (fst h))); reflexivity.
  - etransitivity; [exact H|]. apply bsum_ext. intros t _. unfold W. destruct (f v =? f t); reflexivity.
Qed.

Definition tally (k m : nat) (i : nat) : nat := length (filter (fun v => f v =? i) (seq k m)).

Lemma fv_nodes_ok : forall rows k sizes acc, k + length rows = n -> (forall i, nth i rows [] = nth (k + i) R []) ->
  (forall v, k <= v < n -> f v < length sizes) ->
  exists sizes', fv_nodes rows k sol sizes acc = Some (sizes', (acc + sumN (fun v => bsum n (fun t => if Nat.eqb (f v) (f t) then 0%N else W v t)) (seq k (length rows)))%N) /\
    length sizes' = length sizes /\ forall i, i < length sizes -> nth i sizes' 0 = nth i sizes 0 + tally k (length rows) i.
Proof.
  induction rows as [|row rows IH]; intros k sizes acc L E H; cbn [fv_nodes].
  - exists sizes. cbn. rewrite N.add_0_r. split; [auto|]. split; [auto|]. intros. unfold tally. cbn. lia.
  - cbn [length] in L. rewrite (nth_error_nth' sol 0) by (rewrite LS; fold n; lia). pose proof (H k ltac:(lia)) as Hk. unfold f in Hk.
    destruct (Nat.ltb_spec (nth k sol 0) (length sizes)); [|lia].
    assert (Er : row = nth k R []) by (specialize (E 0); cbn in E; rewrite Nat.add_0_r in E; auto).
    rewrite fv_row_ok.
    2:{ intros t w r Hh. rewrite Er in Hh. apply (row_target R (proj1 MV) k t w r Hh). }
    destruct (IH (S k) (upd sizes (nth k sol 0) (S (nth (nth k sol 0) sizes 0)))
      (acc + sumN (fun h : half => if Nat.eqb (nth k sol 0%nat) (f (fst (fst h))) then 0%N else snd (fst h)) row)%N) as (sz & -> & Ls & Hs).
    + lia.
    + intro i. specialize (E (S i)). cbn in E. rewrite E. f_equal. lia.
    + intros v Hv. rewrite upd_length. apply H. lia.
    + exists sz. rewrite upd_length in *. split; [|split; [auto|]].
      * f_equal. f_equal. cbn [length seq sumN]. pose proof (row_cost k) as X. rewrite <- Er in X. unfold f at 1 in X. rewrite X. lia.
      * intros i Hi. rewrite (Hs i Hi). unfold tally. cbn [length seq filter]. unfold f at 2. destruct (Nat.eqb_spec (nth k sol 0) i) as [->|N]; cbn [length].
        -- rewrite nth_upd_eq by auto. lia.
        -- rewrite nth_upd_neq by auto. lia.
Qed.

Lemma fv_nodes_range : forall rows k sizes acc r, k + length rows = n -> fv_nodes rows k sol sizes acc = Some r ->
  forall v, k <= v < n -> f v < length sizes.
Proof.
  induction rows as [|row rows IH]; intros k sizes acc r L E v Hv; cbn [fv_nodes length] in *; [lia|].
  rewrite (nth_error_nth' sol 0) in E by (rewrite LS; fold n; lia). destruct (Nat.ltb_spec (nth k sol 0) (length sizes)) as [Q|Q]; [|discriminate].
  destruct (fv_row row sol (nth k sol 0) acc) as [a|]; [|discriminate]. destruct (Nat.eq_dec v k) as [->|N]; [auto|].
  rewrite <- (upd_length sizes (nth k sol 0) (S (nth (nth k sol 0) sizes 0))). eapply IH; [|exact E|]; lia.
Qed.

Lemma filter_one (i : nat) : forall l : list nat, length (filter (fun t => f t =? i) l) = 1 <-> exists! j, j < length l /\ f (nth j l 0) = i.
Proof.
  assert (Z : forall l : list nat, filter (fun t => f t =? i) l = [] <-> forall j, j < length l -> f (nth j l 0) <> i).
  { induction l as [|a l IH]; [cbn; split; [intros; lia|auto]|]. cbn [filter]. destruct (Nat.eqb_spec (f a) i) as [E|E].
    - split; [discriminate|]. intro H. exfalso. apply (H 0); [cbn; lia|auto].
    - rewrite IH. split.
      + intros H [|j] Hj; [auto|]. cbn in *. apply H. lia.
      + intros H j Hj. apply (H (S j)). cbn. lia. }
  induction l as [|a l IH].
  - cbn. split; [discriminate|]. intros (j & [Hj _] & _). lia.
  - cbn [filter]. destruct (Nat.eqb_spec (f a) i) as [E|E]; cbn [length].
    + split.
      * intro H. assert (H0 : filter (fun t => f t =? i) l = []) by (destruct (filter (fun t => f t =? i) l); [auto|cbn in H; lia]).
        rewrite Z in H0. exists 0. split; [cbn; split; [lia|auto]|]. intros [|j] [Hj Ej]; [auto|]. exfalso. apply (H0 j); [cbn in Hj; lia|auto].
      * intros (j & _ & U). replace (filter (fun t => f t =? i) l) with (@nil nat); [reflexivity|]. symmetry. apply Z. intros j' Hj' Ej'.
        pose proof (U 0 ltac:(cbn; split; [lia|auto])). pose proof (U (S j') ltac:(cbn; split; [lia|auto])). lia.
    + rewrite IH. split; intros (j & [Hj Ej] & U).
      * exists (S j). split; [cbn; split; [lia|auto]|]. intros [|j'] [Hj' Ej']; [cbn in Ej'; congruence|]. f_equal. apply U. cbn in *. split; [lia|auto].
      * destruct j as [|j]; [cbn in Ej; congruence|]. exists j. split; [cbn in *; split; [lia|auto]|]. intros j' [Hj' Ej'].
        pose proof (U (S j') ltac:(cbn; split; [lia|auto])). lia.
Qed.

Lemma sum_seq (F : nat -> N) : forall m, sumN F (seq 0 m) = bsum m F.
Proof. reflexivity. Qed.

Theorem flow_value_ok w : flow_value G origs sol = Some w <->
  (forall v, v < n -> f v < length origs) /\ (forall i, i < length origs -> exists! j, j < length origs /\ f (nth j origs 0) = i) /\ w = mtcost n W f.
Proof.
  unfold flow_value. fold R.
  assert (FL : forallb (fun t => t <? length sol) origs = true) by (apply forallb_forall; intros t Ht; apply Nat.ltb_lt; rewrite LS; auto).
  rewrite FL. cbn [andb].
  assert (OK : (forall v, v < n -> f v < length origs) -> exists sizes, fv_nodes R 0 sol (repeat 0 (length origs)) 0%N = Some (sizes, (2 * mtcost n W f)%N) /\
     length sizes = length origs /\ forall i, i < length origs -> nth i sizes 0 = tally 0 n i).
  { intro H. destruct (fv_nodes_ok R 0 (repeat 0 (length origs)) 0%N) as (sz & E & L & T); auto; [rewrite repeat_length; intros; apply H; lia|].
    rewrite repeat_length in *. exists sz. split; [|split; [auto|]].
    - rewrite E. f_equal. f_equal. rewrite N.add_0_l. change (length R) with n. rewrite sum_seq. rewrite <- dcost_half; [reflexivity|]. apply W_symm. apply MV.
    - intros i Hi. rewrite (T i Hi), nth_repeat. reflexivity. }
  split.
  - intro H. assert (RG : forall v, v < n -> f v < length origs).
    { destruct (fv_nodes R 0 sol (repeat 0 (length origs)) 0) as [r|] eqn:E; [|discriminate]. intros v Hv.
      rewrite <- (repeat_length 0 (length origs)). eapply fv_nodes_range; [|exact E|]; [reflexivity|lia]. }
    destruct (OK RG) as (sz & E & L & T). rewrite E in H. split; [auto|].
    destruct (forallb _ (seq 0 (length sz))) eqn:FB; [|discriminate]. injection H as <-. rewrite forallb_forall in FB. split.
    + intros i Hi. specialize (FB i ltac:(apply in_seq; lia)). apply andb_prop in FB. destruct FB as [_ FB]. apply Nat.eqb_eq in FB. apply filter_one. exact FB.
    + rewrite N.mul_comm, N.div_mul by discriminate. reflexivity.
  - intros (RG & ONE & ->). destruct (OK RG) as (sz & -> & L & T).
    assert (FB : forallb (fun i => negb (nth i sz 0 =? 0) && (length (filter (fun t => nth t sol 0 =? i) origs) =? 1)) (seq 0 (length sz)) = true).
    { apply forallb_forall. intros i Hi. apply in_seq in Hi. pose proof (ONE i ltac:(lia)) as O1. apply andb_true_intro. split.
      - apply Bool.negb_true_iff, Nat.eqb_neq. rewrite T by lia. destruct O1 as (j & [Hj Ej] & _). unfold tally.
        intro Z. apply length_zero_iff_nil in Z. assert (X : In (nth j origs 0) (filter (fun v => f v =? i) (seq 0 n))).
        { apply filter_In. split; [apply in_seq; pose proof (LO (nth j origs 0) (nth_In _ _ Hj)); unfold n; lia|apply Nat.eqb_eq; auto]. }
        rewrite Z in X. contradiction.
      - apply Nat.eqb_eq. apply (filter_one i origs). auto. }
    rewrite FB. rewrite N.mul_comm, N.div_mul by discriminate. reflexivity.
Qed.
End FV.
