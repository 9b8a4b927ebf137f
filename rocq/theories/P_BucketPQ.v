(* P_BucketPQ.v - the bucket queues refine the priority queue specification. *)
From Verif Require Import SpecPQ P_SpecPQ M_BucketPQ.

Definition bix (s : bq) (v : nat) := nth v (bq_ix s) (None, 0%N).
Definition bkt (s : bq) (a : nat) := nth a (bq_bk s) [].
Definition boff (s : bq) (a : nat) := nth a (bq_off s) 0.

Definition babs (s : bq) : qmap := fun v =>
  match fst (bix s v) with Some _ => Some (snd (bix s v)) | None => None end.

Record binv (n span : nat) (s : bq) : Prop := {
  b_span : bq_span s = span;
  b_ixl : length (bq_ix s) = n;
  b_bkl : length (bq_bk s) = 2 * span + 1;
  b_offl : length (bq_off s) = 2 * span + 1;
  b_pos : forall a p, p < length (bkt s a) ->
      nth p (bkt s a) 0 < n /\ span <= a /\
      bix s (nth p (bkt s a) 0) = (Some (p + boff s a), N.of_nat (a - span));
  b_in : forall v, fst (bix s v) <> None -> In v (bkt s (N.to_nat (snd (bix s v)) + span));
  b_cnt : bq_cnt s = qsize n (babs s);
  b_above : forall a, bq_mx s < a -> bkt s a = [];
  b_top : bkt s (bq_mx s) = [] -> bq_mx s = 0 }.

Lemma bix_out s v : length (bq_ix s) <= v -> bix s v = (None, 0%N).
Proof. intro H. unfold bix. apply nth_overflow; auto. Qed.

Lemma b_in_props n span s a v : binv n span s -> In v (bkt s a) ->
  v < n /\ span <= a /\ a < 2 * span + 1 /\ snd (bix s v) = N.of_nat (a - span) /\
  exists p, p < length (bkt s a) /\ nth p (bkt s a) 0 = v /\ fst (bix s v) = Some (p + boff s a).
Proof.
  intros I H. destruct (In_nth _ _ 0 H) as [p [Hp E]].
  destruct (b_pos _ _ _ I a p Hp) as [A [B C]]. rewrite E in A, C.
  split; [auto|]. split; [auto|]. split.
  - destruct (Nat.lt_ge_cases a (2 * span + 1)); [auto|].
    unfold bkt in Hp. rewrite nth_overflow in Hp by (rewrite (b_bkl _ _ _ I); auto). simpl in Hp. lia.
  - rewrite C. split; [reflexivity|]. exists p. auto.
Qed.

Lemma b_nodup n span s a : binv n span s -> NoDup (bkt s a).
Proof.
  intro I. apply (NoDup_nth _ 0). intros i j Hi Hj E.
  destruct (b_pos _ _ _ I a i Hi) as [_ [_ A]]. destruct (b_pos _ _ _ I a j Hj) as [_ [_ B]].
  rewrite E in A. rewrite A in B. inversion B. lia.
Qed.

Lemma b_same n span s a a' v : binv n span s -> In v (bkt s a) -> In v (bkt s a') -> a = a'.
Proof.
  intros I H H'. destruct (b_in_props _ _ _ _ _ I H) as [_ [A [_ [B _]]]].
  destruct (b_in_props _ _ _ _ _ I H') as [_ [A' [_ [B' _]]]]. rewrite B in B'. lia.
Qed.

(** counting *)
Lemma count_set (f g : nat -> bool) v : forall l, NoDup l -> In v l ->
  (forall u, u <> v -> f u = g u) -> f v = false -> g v = true ->
  length (filter g l) = S (length (filter f l)).
Proof.
  induction l as [|x l IH]; intros ND H E F G; [destruct H|]. inversion ND; subst. destruct H as [->|H].
  - simpl. rewrite F, G. simpl. f_equal. f_equal. apply filter_ext_in. intros a Ha. symmetry. apply E. congruence.
  - simpl. rewrite (E x) by congruence. destruct (g x); simpl; rewrite IH; auto.
Qed.

Lemma qsize_add n m v k m' : v < n -> m v = None -> (forall u, m' u = qset m v (Some k) u) ->
  qsize n m' = S (qsize n m).
Proof.
  intros H N E. unfold qsize. apply count_set with v; [apply seq_NoDup|apply in_seq; lia|..].
  - intros u U. rewrite E. unfold qset. apply Nat.eqb_neq in U. rewrite U. reflexivity.
  - rewrite N. reflexivity.
  - rewrite E. unfold qset. rewrite Nat.eqb_refl. reflexivity.
Qed.

Lemma qsize_del n m v m' : v < n -> m v <> None -> (forall u, m' u = qset m v None u) ->
  qsize n m = S (qsize n m').
Proof.
  intros H N E. unfold qsize. apply count_set with v; [apply seq_NoDup|apply in_seq; lia|..].
  - intros u U. rewrite E. unfold qset. apply Nat.eqb_neq in U. rewrite U. reflexivity.
  - rewrite E. unfold qset. rewrite Nat.eqb_refl. reflexivity.
  - destruct (m v); congruence.
Qed.

Lemma lower_spec bk : forall mx, lower bk mx <= mx /\
  (forall a, lower bk mx < a < mx -> nth a bk [] = []) /\
  (nth (lower bk mx) bk [] = [] -> lower bk mx = 0).
Proof.
  induction mx as [|m [A [B C]]]; simpl; [repeat split; intros; lia|].
  destruct (nth m bk []) eqn:E.
  - split; [lia|]. split; [|auto]. intros a Ha. destruct (Nat.eq_dec a m); [congruence|apply B; lia].
  - split; [lia|]. split; [intros a Ha; lia|congruence].
Qed.

(** generic removal of one node from its bucket *)
Lemma remove_generic n span s v b' o' ix' bk' off' mx' :
  let a := N.to_nat (snd (bix s v)) + span in
  binv n span s -> fst (bix s v) <> None ->
  (forall u, In u b' <-> In u (bkt s a) /\ u <> v) ->
  (forall q, q < length b' -> nth (nth q b' 0) ix' (None, 0%N) = (Some (q + o'), snd (bix s v))) ->
  (forall u, ~ In u (bkt s a) -> nth u ix' (None, 0%N) = bix s u) ->
  fst (nth v ix' (None, 0%N)) = None -> length ix' = n ->
  bk' = upd (bq_bk s) a b' -> length off' = 2 * span + 1 ->
  (forall c, nth c off' 0 = if c =? a then o' else boff s c) ->
  mx' = (match b' with [] => if a =? bq_mx s then lower bk' (bq_mx s) else bq_mx s | _ => bq_mx s end) ->
  let s' := mk_bq (bq_cnt s - 1) span mx' ix' bk' off' in
  binv n span s' /\ forall u, babs s' u = qset (babs s) v None u.
Proof.
  intros a I Hv Hb Hq Ho Hn Lix Ebk Loff Eoff Emx s'.
  pose proof (b_in _ _ _ I v Hv) as Vin. fold a in Vin.
  destruct (b_in_props _ _ _ _ _ I Vin) as [Vn [_ [Ar [Vk _]]]].
  assert (BK : forall c, bkt s' c = if c =? a then b' else bkt s c).
  { intro c. unfold bkt, s'. cbn [bq_bk]. rewrite Ebk, nth_upd, (b_bkl _ _ _ I).
    replace (a <? 2 * span + 1) with true by (symmetry; apply Nat.ltb_lt; auto).
    rewrite andb_true_r. reflexivity. }
  assert (ABS : forall u, babs s' u = qset (babs s) v None u).
  { intro u. unfold qset. destruct (Nat.eqb_spec u v) as [->|U].
    - unfold babs, bix, s'. cbn [bq_ix]. rewrite Hn. reflexivity.
    - destruct (in_dec Nat.eq_dec u (bkt s a)) as [Hu|Hu].
      + assert (Hu' : In u b') by (apply Hb; auto). destruct (In_nth _ _ 0 Hu') as [q [Lq E]].
        pose proof (Hq q Lq) as P. rewrite E in P.
        destruct (b_in_props _ _ _ _ _ I Hu) as [_ [_ [_ [Ku [p [_ [_ Fu]]]]]]].
        unfold babs. unfold bix at 1 2. unfold s'. cbn [bq_ix]. rewrite P, Fu, Ku, Vk. reflexivity.
      + unfold babs. unfold bix at 1 2. unfold s'. cbn [bq_ix]. rewrite Ho by auto. reflexivity. }
  split; [|exact ABS].
  constructor.
  - reflexivity.
  - exact Lix.
  - unfold s'. cbn [bq_bk]. rewrite Ebk, upd_length. apply (b_bkl _ _ _ I).
  - exact Loff.
  - intros c p. rewrite BK. unfold boff, bix, s'. cbn [bq_off bq_ix]. rewrite Eoff.
    destruct (Nat.eqb_spec c a) as [E|C]; intro Hp.
    + rewrite E. assert (In (nth p b' 0) (bkt s a)) as Hin by (apply Hb, nth_In, Hp).
      destruct (b_in_props _ _ _ _ _ I Hin) as [A [B _]]. split; [auto|]. split; [auto|].
      rewrite Hq, Vk by auto. reflexivity.
    + destruct (b_pos _ _ _ I c p Hp) as [A [B D]]. split; [auto|]. split; [auto|].
      rewrite Ho; [exact D|]. intro Hin. apply C. apply (b_same _ _ _ _ _ _ I (nth_In _ 0 Hp) Hin).
  - intros u Hu. rewrite BK. change (bix s' u) with (nth u ix' (None, 0%N)) in *.
    destruct (Nat.eq_dec u v) as [->|U]; [congruence|].
    destruct (in_dec Nat.eq_dec u (bkt s a)) as [Hin|Hin].
    + assert (Hu' : In u b') by (apply Hb; auto). destruct (In_nth _ _ 0 Hu') as [q [Lq E]].
      pose proof (Hq q Lq) as P. rewrite E in P. rewrite P. cbn [snd].
      fold a. rewrite Nat.eqb_refl. exact Hu'.
    + rewrite Ho in * by auto. pose proof (b_in _ _ _ I u Hu) as Q.
      destruct (Nat.eqb_spec (N.to_nat (snd (bix s u)) + span) a) as [E|E]; [rewrite E in Q; contradiction|exact Q].
  - unfold s' at 1. cbn [bq_cnt]. rewrite (b_cnt _ _ _ I).
    rewrite (qsize_del n (babs s) v (babs s') Vn); [lia| |exact ABS].
    unfold babs. destruct (fst (bix s v)); congruence.
  - intros c Hc. unfold s' in Hc. cbn [bq_mx] in Hc. rewrite BK.
    destruct (Nat.eqb_spec c a) as [E|C].
    + destruct b' as [|y b'']; [reflexivity|]. exfalso. rewrite Emx, E in Hc.
      pose proof (b_above _ _ _ I a Hc) as Z. rewrite Z in Vin. destruct Vin.
    + destruct b' as [|y b'']; [|rewrite Emx in Hc; apply (b_above _ _ _ I); auto].
      destruct (Nat.eqb_spec a (bq_mx s)) as [M|M]; [|rewrite Emx in Hc; apply (b_above _ _ _ I); auto].
      destruct (lower_spec bk' (bq_mx s)) as [_ [L _]].
      destruct (Nat.lt_trichotomy c (bq_mx s)) as [T|[T|T]]; [|congruence|apply (b_above _ _ _ I); auto].
      specialize (L c). rewrite <- Emx in L. specialize (L (conj Hc T)).
      rewrite Ebk, nth_upd_neq in L by congruence. exact L.
  - change (bkt s' mx' = [] -> mx' = 0). intro H. rewrite BK in H.
    destruct b' as [|y b''].
    + destruct (Nat.eqb_spec a (bq_mx s)) as [M|M].
      * destruct (lower_spec bk' (bq_mx s)) as [_ [_ L]]. rewrite <- Emx in L. apply L.
        pose proof (BK mx') as Q. unfold bkt at 1, s' in Q. cbn [bq_bk] in Q. rewrite Q. exact H.
      * rewrite Emx in *. destruct (Nat.eqb_spec (bq_mx s) a); [congruence|]. apply (b_top _ _ _ I H).
    + rewrite Emx in *. destruct (Nat.eqb_spec (bq_mx s) a); [discriminate|]. apply (b_top _ _ _ I H).
Qed.

Lemma ix_first_nth ix v c u : v < length ix ->
  nth u (ix_first ix v c) (None, 0%N) = if u =? v then (c, snd (nth v ix (None, 0%N))) else nth u ix (None, 0%N).
Proof.
  intro H. unfold ix_first. rewrite nth_upd. apply Nat.ltb_lt in H. rewrite H, andb_true_r. reflexivity.
Qed.

Lemma ix_first_length ix v c : length (ix_first ix v c) = length ix.
Proof. apply upd_length. Qed.

Lemma removelast_length {A} (l : list A) : length (removelast l) = length l - 1.
Proof. induction l as [|x [|y l]]; [reflexivity|reflexivity|]. change (S (length (removelast (y :: l))) = S (length (y :: l)) - 1). rewrite IHl. simpl. lia. Qed.

Lemma removelast_nth {A} (d : A) : forall l q, q < length l - 1 -> nth q (removelast l) d = nth q l d.
Proof.
  induction l as [|x [|y l] IH]; intros q H; [simpl in H; lia|simpl in H; lia|].
  change (removelast (x :: y :: l)) with (x :: removelast (y :: l)). destruct q as [|q]; [reflexivity|].
  change (nth q (removelast (y :: l)) d = nth q (y :: l) d). apply IH. simpl in *. lia.
Qed.

Lemma last_nth {A} (d : A) l : last l d = nth (length l - 1) l d.
Proof.
  induction l as [|x [|y l] IH]; [reflexivity|reflexivity|].
  change (last (x :: y :: l) d) with (last (y :: l) d). rewrite IH. simpl. rewrite Nat.sub_0_r. reflexivity.
Qed.

(** removing position p: the survivor list, described pointwise *)
Lemma In_by_nth (b b' : list nat) v p (f : nat -> nat) : NoDup b -> p < length b -> nth p b 0 = v ->
  length b' = length b - 1 ->
  (forall q, q < length b' -> f q < length b /\ f q <> p /\ nth q b' 0 = nth (f q) b 0) ->
  (forall i, i < length b -> i <> p -> exists q, q < length b' /\ f q = i) ->
  forall u, In u b' <-> In u b /\ u <> v.
Proof.
  intros ND Hp Ev Lb Hf Hs u. split.
  - intro H. destruct (In_nth _ _ 0 H) as [q [Lq E]]. destruct (Hf q Lq) as [A [B C]].
    rewrite <- E, C. split; [apply nth_In; auto|]. intro X. rewrite <- Ev in X.
    apply B. apply (proj1 (NoDup_nth b 0) ND); auto.
  - intros [H U]. destruct (In_nth _ _ 0 H) as [i [Li E]].
    destruct (Hs i Li) as [q [Lq F]]; [intros ->; congruence|].
    destruct (Hf q Lq) as [_ [_ C]]. rewrite <- E, <- F, <- C. apply nth_In; auto.
Qed.

Definition wfb (fifo : bool) (n span : nat) (s : bq) : Prop :=
  binv n span s /\ (fifo = false -> forall a, boff s a = 0).

Lemma queued n span s v : binv n span s -> babs s v <> None ->
  exists p, let a := N.to_nat (snd (bix s v)) + span in
    v < n /\ p < length (bkt s a) /\ nth p (bkt s a) 0 = v /\ fst (bix s v) = Some (p + boff s a) /\
    a < 2 * span + 1 /\
    nth_error (bq_ix s) v = Some (Some (p + boff s a), snd (bix s v)).
Proof.
  intros I H. assert (F : fst (bix s v) <> None) by (unfold babs in H; destruct (fst (bix s v)); congruence).
  pose proof (b_in _ _ _ I v F) as Vin.
  destruct (b_in_props _ _ _ _ _ I Vin) as [Vn [_ [Ar [_ [p [Hp [E G]]]]]]].
  exists p. cbv zeta. split; [auto|]. split; [auto|]. split; [auto|]. split; [auto|]. split; [auto|].
  rewrite (nth_error_nth' _ (None, 0%N)) by (rewrite (b_ixl _ _ _ I); auto).
  fold (bix s v). rewrite (surjective_pairing (bix s v)) at 1. rewrite G. reflexivity.
Qed.

Lemma key_same n span s v u : binv n span s -> fst (bix s v) <> None ->
  In u (bkt s (N.to_nat (snd (bix s v)) + span)) -> snd (bix s u) = snd (bix s v).
Proof.
  intros I F H. destruct (b_in_props _ _ _ _ _ I H) as [_ [_ [_ [K _]]]]. rewrite K.
  replace (N.to_nat (snd (bix s v)) + span - span) with (N.to_nat (snd (bix s v))) by lia. apply N2Nat.id.
Qed.

Lemma lifo_delete_node_ok n span s v : wfb false n span s -> babs s v <> None ->
  exists s', lifo_delete_node s v = Some s' /\ wfb false n span s' /\
             forall u, babs s' u = qset (babs s) v None u.
Proof.
  intros [I Z] H. specialize (Z eq_refl). destruct (queued _ _ _ _ I H) as [p Q]. cbv zeta in Q.
  set (a := N.to_nat (snd (bix s v)) + span) in *. destruct Q as [Vn [Hp [Ev [Fv [Ar NE]]]]].
  unfold lifo_delete_node. rewrite NE. unfold bq_addr. rewrite (b_span _ _ _ I). fold a.
  rewrite (Z a), Nat.add_0_r in *. fold (bkt s a).
  pose proof (b_nodup _ _ _ a I) as ND.
  assert (FN : fst (bix s v) <> None) by congruence.
  pose proof (b_ixl _ _ _ I) as IL.
  destruct (Nat.ltb_spec 1 (length (bkt s a))) as [L|L].
  - set (b := bkt s a) in *. set (w := last b 0).
    set (b' := removelast (upd (upd b p w) (length b - 1) (nth p b 0))).
    assert (Lb' : length b' = length b - 1) by (unfold b'; rewrite removelast_length, !upd_length; auto).
    assert (Nb' : forall q, q < length b' -> nth q b' 0 = nth (if q =? p then length b - 1 else q) b 0).
    { intros q Hq. unfold b'. rewrite removelast_nth by (rewrite !upd_length; lia).
      rewrite nth_upd_neq by lia. rewrite nth_upd.
      replace (p <? length b) with true by (symmetry; apply Nat.ltb_lt; auto). rewrite andb_true_r.
      destruct (q =? p); [unfold w; apply last_nth|reflexivity]. }
    assert (Wn : w < n /\ In w b).
    { unfold w. rewrite last_nth. split; [apply (b_pos _ _ _ I a); fold b; lia|apply nth_In; lia]. }
    assert (IB : forall u, In u b' <-> In u b /\ u <> v).
    { apply In_by_nth with p (fun q => if q =? p then length b - 1 else q); auto.
      - intros q Hq. split; [|split; [|auto]]; destruct (Nat.eqb_spec q p); lia.
      - intros i Li Ni. destruct (Nat.eq_dec i (length b - 1)) as [E|E].
        + exists p. rewrite Nat.eqb_refl. lia.
        + exists i. destruct (Nat.eqb_spec i p); lia. }
    eexists. split; [reflexivity|].
    match goal with |- wfb _ _ _ ?X /\ _ =>
      assert (R : binv n span X /\ forall u, babs X u = qset (babs s) v None u) end.
    { apply remove_generic with (b' := b') (o' := 0); auto.
      - intros q Hq. assert (X : nth q b' 0 <> v /\ In (nth q b' 0) b).
        { pose proof (proj1 (IB _) (nth_In _ 0 Hq)). tauto. }
        destruct X as [X1 X2].
        rewrite ix_first_nth by (rewrite ix_first_length; lia). apply Nat.eqb_neq in X1. rewrite X1.
        rewrite ix_first_nth by lia. rewrite (Nb' q Hq) in *.
        destruct (Nat.eqb_spec q p) as [->|E].
        + unfold w. rewrite last_nth, Nat.eqb_refl. f_equal; [f_equal; lia|].
          apply (key_same _ _ _ v _ I FN). exact X2.
        + destruct (Nat.eqb_spec (nth q b 0) w) as [E2|E2].
          * exfalso. unfold w in E2. rewrite last_nth in E2.
            apply (proj1 (NoDup_nth b 0) ND) in E2; lia.
          * fold (bix s (nth q b 0)). destruct (b_pos _ _ _ I a q) as [_ [_ D]]; [fold b; lia|].
            fold b in D. rewrite (surjective_pairing (bix s _)).
            rewrite (key_same _ _ _ v _ I FN) by exact X2. rewrite D. cbn [fst]. rewrite (Z a). reflexivity.
      - intros u Hu. fold a b in Hu. rewrite ix_first_nth by (rewrite ix_first_length; lia).
        destruct (Nat.eqb_spec u v) as [->|U]; [exfalso; apply Hu; rewrite <- Ev; apply nth_In; auto|].
        rewrite ix_first_nth by lia. destruct (Nat.eqb_spec u w) as [->|W]; [exfalso; tauto|reflexivity].
      - rewrite ix_first_nth by (rewrite ix_first_length; lia). rewrite Nat.eqb_refl. reflexivity.
      - rewrite !ix_first_length. auto.
      - apply (b_offl _ _ _ I).
      - intro c. fold (boff s c). fold a. destruct (Nat.eqb_spec c a); [apply Z|reflexivity].
      - destruct b' eqn:EB; [simpl in Lb'; lia|reflexivity]. }
    split; [split; [exact (proj1 R)|intros _ c; apply Z]|exact (proj2 R)].
  - set (b := bkt s a) in *. assert (length b = 1) as L1 by lia.
    assert (p = 0) as -> by lia.
    eexists. split; [reflexivity|].
    match goal with |- wfb _ _ _ ?X /\ _ =>
      assert (R : binv n span X /\ forall u, babs X u = qset (babs s) v None u) end.
    { assert (RL : removelast b = []) by (apply length_zero_iff_nil; rewrite removelast_length; lia).
      apply remove_generic with (b' := removelast b) (o' := 0); auto; fold a; fold b.
      - rewrite RL. intro u. split; [intros []|]. intros [Hu Nu]. exfalso. apply Nu.
        destruct b as [|x [|y b0]]; simpl in L1; try lia. destruct Hu as [<-|[]]. exact Ev.
      - rewrite RL. intros q Hq. simpl in Hq. lia.
      - intros u Hu. rewrite ix_first_nth by lia.
        destruct (Nat.eqb_spec u v) as [->|U]; [exfalso; apply Hu; rewrite <- Ev; apply nth_In; lia|reflexivity].
      - rewrite ix_first_nth by lia. rewrite Nat.eqb_refl. reflexivity.
      - rewrite ix_first_length. auto.
      - apply (b_offl _ _ _ I).
      - intro c. fold (boff s c). destruct (Nat.eqb_spec c a); [apply Z|reflexivity].
      - rewrite RL. reflexivity. }
    split; [split; [exact (proj1 R)|intros _ c; apply Z]|exact (proj2 R)].
Qed.

Lemma fifo_delete_node_ok n span s v : wfb true n span s -> babs s v <> None ->
  exists s', fifo_delete_node s v = Some s' /\ wfb true n span s' /\
             forall u, babs s' u = qset (babs s) v None u.
Proof.
  intros [I _] H. destruct (queued _ _ _ _ I H) as [p Q]. cbv zeta in Q.
  set (a := N.to_nat (snd (bix s v)) + span) in *. destruct Q as [Vn [Hp [Ev [Fv [Ar NE]]]]].
  unfold fifo_delete_node. rewrite NE. unfold bq_addr. rewrite (b_span _ _ _ I). fold a.
  fold (bkt s a). fold (boff s a). replace (p + boff s a - boff s a) with p by lia.
  pose proof (b_nodup _ _ _ a I) as ND.
  assert (FN : fst (bix s v) <> None) by congruence.
  pose proof (b_ixl _ _ _ I) as IL.
  assert (OFF : forall c, nth c (upd (bq_off s) a (S (boff s a))) 0 = if c =? a then S (boff s a) else boff s c).
  { intro c. rewrite nth_upd, (b_offl _ _ _ I).
    replace (a <? 2 * span + 1) with true by (symmetry; apply Nat.ltb_lt; auto).
    rewrite andb_true_r. reflexivity. }
  destruct (Nat.ltb_spec 1 (length (bkt s a))) as [L|L].
  - set (b := bkt s a) in *. set (w := hd 0 b).
    assert (Ew : w = nth 0 b 0) by (unfold w; destruct b; reflexivity).
    set (b' := tl (upd (upd b p w) 0 (nth p b 0))).
    assert (TL : forall l : list nat, length (tl l) = length l - 1) by (intros [|? ?]; simpl; lia).
    assert (TN : forall (l : list nat) q, nth q (tl l) 0 = nth (S q) l 0).
    { intros [|? ?] q; [destruct q; reflexivity|reflexivity]. }
    assert (Lb' : length b' = length b - 1) by (unfold b'; rewrite TL, !upd_length; auto).
    assert (Nb' : forall q, q < length b' -> nth q b' 0 = nth (if S q =? p then 0 else S q) b 0).
    { intros q Hq. unfold b'. rewrite TN.
      rewrite nth_upd_neq by lia. rewrite nth_upd.
      replace (p <? length b) with true by (symmetry; apply Nat.ltb_lt; auto). rewrite andb_true_r.
      destruct (S q =? p); [exact Ew|reflexivity]. }
    assert (Wn : w < n /\ In w b).
    { rewrite Ew. split; [apply (b_pos _ _ _ I a); fold b; lia|apply nth_In; lia]. }
    assert (IB : forall u, In u b' <-> In u b /\ u <> v).
    { apply In_by_nth with p (fun q => if S q =? p then 0 else S q); auto.
      - intros q Hq. split; [|split; [|auto]]; destruct (Nat.eqb_spec (S q) p); lia.
      - intros i Li Ni. destruct (Nat.eq_dec i 0) as [E|E].
        + exists (p - 1). replace (S (p - 1)) with p by lia. rewrite Nat.eqb_refl. lia.
        + exists (i - 1). destruct (Nat.eqb_spec (S (i - 1)) p); lia. }
    eexists. split; [reflexivity|].
    match goal with |- wfb _ _ _ ?X /\ _ =>
      assert (R : binv n span X /\ forall u, babs X u = qset (babs s) v None u) end.
    { apply remove_generic with (b' := b') (o' := S (boff s a)); auto.
      - intros q Hq. assert (X : nth q b' 0 <> v /\ In (nth q b' 0) b).
        { pose proof (proj1 (IB _) (nth_In _ 0 Hq)). tauto. }
        destruct X as [X1 X2].
        rewrite ix_first_nth by (rewrite ix_first_length; lia). apply Nat.eqb_neq in X1. rewrite X1.
        rewrite ix_first_nth by lia. rewrite (Nb' q Hq) in *.
        destruct (Nat.eqb_spec (S q) p) as [E|E].
        + rewrite Ew, Nat.eqb_refl. f_equal; [f_equal; lia|].
          apply (key_same _ _ _ v _ I FN). exact X2.
        + destruct (Nat.eqb_spec (nth (S q) b 0) w) as [E2|E2].
          * exfalso. rewrite Ew in E2. apply (proj1 (NoDup_nth b 0) ND) in E2; lia.
          * fold (bix s (nth (S q) b 0)). destruct (b_pos _ _ _ I a (S q)) as [_ [_ D]]; [fold b; lia|].
            fold b in D. rewrite (surjective_pairing (bix s _)).
            rewrite (key_same _ _ _ v _ I FN) by exact X2. rewrite D. cbn [fst]. f_equal. f_equal. lia.
      - intros u Hu. fold a b in Hu. rewrite ix_first_nth by (rewrite ix_first_length; lia).
        destruct (Nat.eqb_spec u v) as [->|U]; [exfalso; apply Hu; rewrite <- Ev; apply nth_In; auto|].
        rewrite ix_first_nth by lia. destruct (Nat.eqb_spec u w) as [->|W]; [exfalso; tauto|reflexivity].
      - rewrite ix_first_nth by (rewrite ix_first_length; lia). rewrite Nat.eqb_refl. reflexivity.
      - rewrite !ix_first_length. auto.
      - rewrite upd_length. apply (b_offl _ _ _ I).
      - destruct b' eqn:EB; [simpl in Lb'; lia|reflexivity]. }
    split; [split; [exact (proj1 R)|discriminate]|exact (proj2 R)].
  - set (b := bkt s a) in *. assert (length b = 1) as L1 by lia.
    assert (p = 0) as -> by lia.
    eexists. split; [reflexivity|].
    match goal with |- wfb _ _ _ ?X /\ _ =>
      assert (R : binv n span X /\ forall u, babs X u = qset (babs s) v None u) end.
    { assert (RL : tl b = []) by (destruct b as [|? [|? ?]]; simpl in *; try lia; reflexivity).
      apply remove_generic with (b' := tl b) (o' := S (boff s a)); auto; fold a; fold b.
      - rewrite RL. intro u. split; [intros []|]. intros [Hu Nu]. exfalso. apply Nu.
        destruct b as [|x [|y b0]]; simpl in L1; try lia. destruct Hu as [<-|[]]. exact Ev.
      - rewrite RL. intros q Hq. simpl in Hq. lia.
      - intros u Hu. rewrite ix_first_nth by lia.
        destruct (Nat.eqb_spec u v) as [->|U]; [exfalso; apply Hu; rewrite <- Ev; apply nth_In; lia|reflexivity].
      - rewrite ix_first_nth by lia. rewrite Nat.eqb_refl. reflexivity.
      - rewrite ix_first_length. auto.
      - rewrite upd_length. apply (b_offl _ _ _ I).
      - rewrite RL. reflexivity. }
    split; [split; [exact (proj1 R)|discriminate]|exact (proj2 R)].
Qed.

(** deleteMax is deleteNode of the last (LIFO) resp. first (FIFO) node of the top bucket *)
Lemma at_top n span s p : binv n span s -> p < length (bkt s (bq_mx s)) ->
  let v := nth p (bkt s (bq_mx s)) 0 in
  v < n /\ span <= bq_mx s /\ babs s v = Some (N.of_nat (bq_mx s - span)) /\
  bq_mx s < 2 * span + 1 /\
  bix s v = (Some (p + boff s (bq_mx s)), N.of_nat (bq_mx s - span)) /\
  N.to_nat (snd (bix s v)) + span = bq_mx s.
Proof.
  intros I Hp v. destruct (b_pos _ _ _ I _ _ Hp) as [A [B C]]. fold v in A, C.
  destruct (b_in_props _ _ _ _ _ I (nth_In _ 0 Hp)) as [_ [_ [D _]]].
  split; [auto|]. split; [auto|]. split; [unfold babs; rewrite C; reflexivity|]. split; [auto|].
  split; [auto|]. rewrite C. cbn [snd]. lia.
Qed.

Lemma top_is_max n span s p : binv n span s -> p < length (bkt s (bq_mx s)) ->
  qmax (babs s) (nth p (bkt s (bq_mx s)) 0) (N.of_nat (bq_mx s - span)).
Proof.
  intros I Hp. destruct (at_top _ _ _ _ I Hp) as [_ [_ [A _]]]. split; [exact A|].
  intros u k' Hu. unfold babs in Hu. destruct (fst (bix s u)) eqn:F; [|discriminate]. inversion Hu; subst k'.
  assert (FN : fst (bix s u) <> None) by congruence.
  pose proof (b_in _ _ _ I u FN) as U.
  destruct (Nat.lt_ge_cases (bq_mx s) (N.to_nat (snd (bix s u)) + span)) as [L|L]; [|lia].
  rewrite (b_above _ _ _ I _ L) in U. destruct U.
Qed.

Lemma nonempty_top n span s : binv n span s -> nonempty (babs s) -> 0 < length (bkt s (bq_mx s)).
Proof.
  intros I [v [k H]]. destruct (bkt s (bq_mx s)) eqn:E; [|simpl; lia].
  pose proof (b_top _ _ _ I E) as M. exfalso.
  assert (F : fst (bix s v) <> None) by (unfold babs in H; destruct (fst (bix s v)); congruence).
  pose proof (b_in _ _ _ I v F) as U.
  destruct (Nat.eq_dec (N.to_nat (snd (bix s v)) + span) (bq_mx s)) as [X|X].
  - rewrite X, E in U. destruct U.
  - rewrite (b_above _ _ _ I) in U by lia. destruct U.
Qed.

Lemma lifo_delete_max_ok n span s : wfb false n span s -> nonempty (babs s) ->
  exists s' v, lifo_delete_max s = Some (s', v) /\ wfb false n span s' /\ (exists k, qmax (babs s) v k) /\
               v = last (bkt s (bq_mx s)) 0 /\ forall u, babs s' u = qset (babs s) v None u.
Proof.
  intros [I Z] NE. specialize (Z eq_refl). pose proof (nonempty_top _ _ _ I NE) as L.
  unfold lifo_delete_max. fold (bkt s (bq_mx s)).
  destruct (bkt s (bq_mx s)) as [|x xs] eqn:EB; [simpl in L; lia|]. rewrite <- EB in L |- *.
  set (b := bkt s (bq_mx s)) in *. set (v := last b 0).
  pose proof (b_nodup _ _ _ (bq_mx s) I) as ND. fold b in ND.
  assert (Lb : length b - 1 < length b) by lia.
  destruct (at_top _ _ _ _ I Lb) as [Vn [Sp [Av [Mr [Bv Am]]]]]. fold b in Vn, Av, Bv, Am.
  pose proof (top_is_max _ _ _ _ I Lb) as QM. fold b in QM.
  rewrite <- last_nth in Vn, Av, Bv, Am, QM. fold v in Vn, Av, Bv, Am, QM.
  assert (Ev : nth (length b - 1) b 0 = v) by (symmetry; apply last_nth).
  pose proof (b_ixl _ _ _ I) as IL.
  exists (mk_bq (bq_cnt s - 1) (bq_span s)
            (match removelast b with [] => lower (upd (bq_bk s) (bq_mx s) (removelast b)) (bq_mx s) | _ => bq_mx s end)
            (ix_first (bq_ix s) v None) (upd (bq_bk s) (bq_mx s) (removelast b)) (bq_off s)), v.
  split; [reflexivity|]. rewrite (b_span _ _ _ I).
  match goal with |- wfb _ _ _ ?X /\ _ =>
      assert (R : binv n span X /\ forall u, babs X u = qset (babs s) v None u) end.
  { apply remove_generic with (b' := removelast b) (o' := 0); try rewrite Am; auto.
    - rewrite Bv. discriminate.
    - fold b. apply In_by_nth with (length b - 1) (fun q => q); auto; rewrite removelast_length.
      + reflexivity.
      + intros q Hq. split; [lia|]. split; [lia|]. apply removelast_nth. auto.
      + intros i Hi Ni. exists i. split; [lia|reflexivity].
    - rewrite removelast_length. intros q Hq. rewrite removelast_nth by auto.
      rewrite ix_first_nth by lia. destruct (Nat.eqb_spec (nth q b 0) v) as [E|E].
      + exfalso. rewrite <- Ev in E. apply (proj1 (NoDup_nth b 0) ND) in E; lia.
      + assert (Hq2 : q < length b) by lia.
        destruct (at_top _ _ _ _ I Hq2) as [_ [_ [_ [_ [Bq _]]]]].
        fold b in Bq. unfold bix at 1 in Bq. rewrite Bq, Bv, (Z (bq_mx s)). reflexivity.
    - intros u Hu. rewrite ix_first_nth by lia. destruct (Nat.eqb_spec u v) as [->|U]; [|reflexivity].
      exfalso. apply Hu. fold b. rewrite <- Ev. apply nth_In. auto.
    - rewrite ix_first_nth by lia. rewrite Nat.eqb_refl. reflexivity.
    - rewrite ix_first_length. auto.
    - apply (b_offl _ _ _ I).
    - intro c. fold (boff s c). destruct (Nat.eqb_spec c (bq_mx s)); [apply Z|reflexivity].
    - rewrite Nat.eqb_refl. reflexivity. }
  split; [split; [exact (proj1 R)|intros _ c; apply Z]|].
  split; [eexists; exact QM|]. split; [reflexivity|exact (proj2 R)].
Qed.

Lemma fifo_delete_max_ok n span s : wfb true n span s -> nonempty (babs s) ->
  exists s' v, fifo_delete_max s = Some (s', v) /\ wfb true n span s' /\ (exists k, qmax (babs s) v k) /\
               v = hd 0 (bkt s (bq_mx s)) /\ forall u, babs s' u = qset (babs s) v None u.
Proof.
  intros [I _] NE. pose proof (nonempty_top _ _ _ I NE) as L.
  unfold fifo_delete_max. fold (bkt s (bq_mx s)). fold (boff s (bq_mx s)).
  destruct (at_top _ _ _ _ I L) as [Vn [Sp [Av [Mr [Bv Am]]]]].
  pose proof (top_is_max _ _ _ _ I L) as QM.
  pose proof (b_nodup _ _ _ (bq_mx s) I) as ND.
  destruct (bkt s (bq_mx s)) as [|v b'] eqn:EB; [simpl in L; lia|].
  cbn [nth] in Vn, Av, Bv, Am, QM.
  pose proof (b_ixl _ _ _ I) as IL.
  eexists. exists v. split; [reflexivity|]. rewrite (b_span _ _ _ I).
  match goal with |- wfb _ _ _ ?X /\ _ =>
      assert (R : binv n span X /\ forall u, babs X u = qset (babs s) v None u) end.
  { apply remove_generic with (b' := b') (o' := S (boff s (bq_mx s))); try rewrite Am; try rewrite EB; auto.
    - rewrite Bv. discriminate.
    - inversion ND; subst. intro u. split; [intro Hu; split; [right; auto|congruence]|].
      intros [[->|Hu] N]; [congruence|auto].
    - intros q Hq. rewrite ix_first_nth by lia. destruct (Nat.eqb_spec (nth q b' 0) v) as [E|E].
      + exfalso. apply NoDup_cons_iff in ND. destruct ND as [ND _]. apply ND. rewrite <- E. apply nth_In; auto.
      + assert (Hq2 : S q < length (bkt s (bq_mx s))) by (rewrite EB; simpl; lia).
        destruct (at_top _ _ _ _ I Hq2) as [_ [_ [_ [_ [Bq _]]]]].
        rewrite EB in Bq. cbn [nth] in Bq. unfold bix at 1 in Bq. rewrite Bq, Bv. cbn [snd]. f_equal. f_equal. lia.
    - intros u Hu. rewrite ix_first_nth by lia. destruct (Nat.eqb_spec u v) as [->|U]; [|reflexivity].
      exfalso. apply Hu. left. reflexivity.
    - rewrite ix_first_nth by lia. rewrite Nat.eqb_refl. reflexivity.
    - rewrite ix_first_length. auto.
    - rewrite upd_length. apply (b_offl _ _ _ I).
    - intro c. rewrite nth_upd, (b_offl _ _ _ I).
      replace (bq_mx s <? 2 * span + 1) with true by (symmetry; apply Nat.ltb_lt; auto).
      rewrite andb_true_r. reflexivity.
    - rewrite Nat.eqb_refl. reflexivity. }
  split; [split; [exact (proj1 R)|discriminate]|].
  split; [eexists; exact QM|]. split; [reflexivity|exact (proj2 R)].
Qed.

Lemma bq_insert_ok fifo n span s v k : wfb fifo n span s -> v < n -> babs s v = None ->
  (key32 k <= N.of_nat span)%N ->
  exists s', bq_insert s v k = Some s' /\ wfb fifo n span s' /\
             (forall u, babs s' u = qset (babs s) v (Some (key32 k)) u) /\
             bq_mx s' = Nat.max (bq_mx s) (N.to_nat (key32 k) + span) /\
             forall c, bkt s' c = if c =? N.to_nat (key32 k) + span then bkt s c ++ [v] else bkt s c.
Proof.
  intros [I Z] Vn Av Kr. unfold bq_insert. unfold bq_addr. rewrite (b_span _ _ _ I).
  set (a := N.to_nat (key32 k) + span). set (kk := key32 k) in *.
  assert (Ar : a < 2 * span + 1) by (unfold a; lia).
  pose proof (b_ixl _ _ _ I) as IL. pose proof (b_bkl _ _ _ I) as BL.
  replace (a <? length (bq_bk s)) with true by (symmetry; apply Nat.ltb_lt; lia).
  replace (v <? length (bq_ix s)) with true by (symmetry; apply Nat.ltb_lt; lia).
  cbn [andb]. fold (bkt s a). fold (boff s a). eexists. split; [reflexivity|].
  match goal with |- wfb _ _ _ ?X /\ _ => set (s' := X) end.
  assert (BK : forall c, bkt s' c = if c =? a then bkt s c ++ [v] else bkt s c).
  { intro c. unfold bkt, s'. cbn [bq_bk]. rewrite nth_upd, BL.
    replace (a <? 2 * span + 1) with true by (symmetry; apply Nat.ltb_lt; auto).
    rewrite andb_true_r. destruct (Nat.eqb_spec c a) as [->|]; reflexivity. }
  assert (IX : forall u, bix s' u = if u =? v then (Some (length (bkt s a) + boff s a), kk) else bix s u).
  { intro u. unfold bix, s'. cbn [bq_ix]. rewrite nth_upd, IL.
    replace (v <? n) with true by (symmetry; apply Nat.ltb_lt; auto).
    rewrite andb_true_r. destruct (u =? v); [|reflexivity]. rewrite app_length. cbn [length].
    f_equal. f_equal. lia. }
  assert (ABS : forall u, babs s' u = qset (babs s) v (Some kk) u).
  { intro u. unfold babs, qset. rewrite IX. destruct (u =? v); reflexivity. }
  assert (NV : forall c, ~ In v (bkt s c)).
  { intros c Hc. destruct (b_in_props _ _ _ _ _ I Hc) as [_ [_ [_ [_ [p [_ [_ F]]]]]]].
    unfold babs in Av. rewrite F in Av. discriminate. }
  assert (MX : bq_mx s' = Nat.max (bq_mx s) a).
  { unfold s'. cbn [bq_mx]. destruct (Nat.ltb_spec (bq_mx s) a); lia. }
  split; [|split; [exact ABS|split; [exact MX|exact BK]]]. split.
  - constructor.
    + reflexivity.
    + unfold s'. cbn [bq_ix]. rewrite upd_length. auto.
    + unfold s'. cbn [bq_bk]. rewrite upd_length. auto.
    + apply (b_offl _ _ _ I).
    + intros c p. rewrite BK. change (boff s' c) with (boff s c). rewrite IX.
      destruct (Nat.eqb_spec c a) as [E|E]; intro Hp.
      * rewrite app_length in Hp. cbn [length] in Hp.
        destruct (Nat.eq_dec p (length (bkt s c))) as [P|P].
        { rewrite app_nth2 by lia. replace (p - length (bkt s c)) with 0 by lia. cbn [nth].
          rewrite Nat.eqb_refl. split; [auto|]. split; [unfold a in E; lia|]. rewrite P, E. f_equal.
          unfold a. lia. }
        { rewrite app_nth1 by lia. assert (Hp2 : p < length (bkt s c)) by lia.
          destruct (b_pos _ _ _ I c p Hp2) as [A [B D]]. split; [auto|]. split; [auto|].
          destruct (Nat.eqb_spec (nth p (bkt s c) 0) v) as [F|F]; [|exact D].
          exfalso. apply (NV c). rewrite <- F. apply nth_In; auto. }
      * destruct (b_pos _ _ _ I c p Hp) as [A [B D]]. split; [auto|]. split; [auto|].
        destruct (Nat.eqb_spec (nth p (bkt s c) 0) v) as [F|F]; [|exact D].
        exfalso. apply (NV c). rewrite <- F. apply nth_In; auto.
    + intros u. rewrite IX, BK. destruct (Nat.eqb_spec u v) as [->|U].
      * intros _. cbn [snd]. fold a. rewrite Nat.eqb_refl. apply in_or_app. right. left. reflexivity.
      * intro F. pose proof (b_in _ _ _ I u F) as Q. destruct (_ =? a); [apply in_or_app; auto|auto].
    + change (bq_cnt s') with (S (bq_cnt s)). rewrite (b_cnt _ _ _ I). symmetry.
      apply qsize_add with v kk; auto.
    + intros c Hc. rewrite MX in Hc. rewrite BK. destruct (Nat.eqb_spec c a) as [E|E]; [lia|].
      apply (b_above _ _ _ I). lia.
    + rewrite MX, BK. destruct (Nat.eqb_spec (Nat.max (bq_mx s) a) a) as [E|E].
      * intro X. destruct (bkt s (Nat.max (bq_mx s) a)); discriminate.
      * intro X. replace (Nat.max (bq_mx s) a) with (bq_mx s) in * by lia. apply (b_top _ _ _ I X).
  - intros F c. apply (Z F).
Qed.

Lemma delete_node_any fifo n span s v : wfb fifo n span s -> babs s v <> None ->
  exists s', bq_delete_node fifo s v = Some s' /\ wfb fifo n span s' /\
             forall u, babs s' u = qset (babs s) v None u.
Proof. destruct fifo; [apply fifo_delete_node_ok|apply lifo_delete_node_ok]. Qed.

Lemma change_key_any fifo n span s v k : wfb fifo n span s -> v < n -> babs s v <> None ->
  (key32 k <= N.of_nat span)%N ->
  exists s', bq_change_key fifo s v k = Some s' /\ wfb fifo n span s' /\
             forall u, babs s' u = qset (babs s) v (Some (key32 k)) u.
Proof.
  intros W Vn H K. destruct (delete_node_any _ _ _ _ _ W H) as [s1 [E1 [W1 A1]]].
  assert (N1 : babs s1 v = None) by (rewrite A1; unfold qset; rewrite Nat.eqb_refl; reflexivity).
  destruct (bq_insert_ok _ _ _ _ _ k W1 Vn N1 K) as [s2 [E2 [W2 [A2 _]]]].
  exists s2. unfold bq_change_key. rewrite E1. split; [exact E2|]. split; [exact W2|].
  intro u. rewrite A2. unfold qset at 1 2. destruct (Nat.eqb_spec u v) as [->|U]; [reflexivity|].
  rewrite A1. unfold qset. apply Nat.eqb_neq in U. rewrite U. reflexivity.
Qed.

Lemma delete_max_any (fifo : bool) n span s : wfb fifo n span s -> nonempty (babs s) ->
  exists s' v, bq_delete_max fifo s = Some (s', v) /\ wfb fifo n span s' /\ (exists k, qmax (babs s) v k) /\
               v = (if fifo then hd 0 (bkt s (bq_mx s)) else last (bkt s (bq_mx s)) 0) /\
               forall u, babs s' u = qset (babs s) v None u.
Proof. destruct fifo; [apply fifo_delete_max_ok|apply lifo_delete_max_ok]. Qed.

Lemma qset_ext m m' v x u : (forall w, m w = m' w) -> qset m v x u = qset m' v x u.
Proof. intro E. unfold qset. destruct (u =? v); auto. Qed.

Lemma nonempty_ext m m' : (forall w, m w = m' w) -> nonempty m -> nonempty m'.
Proof. intros E [v [k H]]. exists v, k. rewrite <- E. auto. Qed.

Lemma qsize_zero n m : (forall v, m v <> None -> v < n) -> (qsize n m = 0 <-> forall v, m v = None).
Proof.
  intro R. unfold qsize. split.
  - intros H v. destruct (m v) eqn:E; [|reflexivity]. exfalso.
    assert (In v (filter (fun v => match m v with Some _ => true | None => false end) (seq 0 n))) as X.
    { apply filter_In. rewrite E. split; [apply in_seq; specialize (R v); rewrite E in R; split; [lia|apply R; discriminate]|auto]. }
    apply length_zero_iff_nil in H. rewrite H in X. destruct X.
  - intro H. apply length_zero_iff_nil. induction (seq 0 n); [reflexivity|]. simpl. rewrite H. auto.
Qed.

Lemma bq_step_ok fifo n span s m o : wfb fifo n span s -> (forall u, m u = babs s u) -> pre_bucket n span m o ->
  exists s' r m', bq_step fifo s o = Some (s', r) /\ wfb fifo n span s' /\ (forall u, m' u = babs s' u) /\ qstep n m o r m'.
Proof.
  intros W E P. pose proof (proj1 W) as I.
  assert (SAME : forall r, qstep n m o r m -> bq_step fifo s o = Some (s, r) ->
    exists s' r m', bq_step fifo s o = Some (s', r) /\ wfb fifo n span s' /\ (forall u, m' u = babs s' u) /\ qstep n m o r m').
  { intros r Q X. exists s, r, m. auto. }
  pose proof (b_ixl _ _ _ I) as IL.
  assert (CK : forall v k, v < n /\ m v <> None /\ (key32 k <= N.of_nat span)%N ->
    exists s', bq_change_key fifo s v k = Some s' /\ wfb fifo n span s' /\
             forall u, babs s' u = qset m v (Some (key32 k)) u).
  { intros v k [A [B C]]. rewrite E in B. destruct (change_key_any _ _ _ _ _ _ W A B C) as [s' [X [Y Z]]].
    exists s'. split; [auto|]. split; [auto|]. intro u. rewrite Z. apply qset_ext. auto. }
  assert (LK : forall v, v < n -> nth_error (bq_ix s) v = Some (bix s v)).
  { intros v Hv. apply nth_error_nth'. lia. }
  destruct o as [v k| |v|v k|v k|v k|v|v| | | |]; cbn [pre_bucket bq_step] in *.
  - destruct P as [A [B C]]. rewrite E in B. destruct (bq_insert_ok _ _ _ _ _ k W A B C) as [s' [X [Y [Z _]]]].
    exists s', RUnit, (babs s'). rewrite X. split; [reflexivity|]. split; [auto|]. split; [auto|].
    cbn [qstep]. intro u. rewrite E, B, Z. apply qset_ext. auto.
  - apply (nonempty_ext _ _ E) in P. destruct (delete_max_any _ _ _ _ W P) as [s' [v [X [Y [[k Q] [_ Z]]]]]].
    exists s', (RNode v), (babs s'). rewrite X. split; [reflexivity|]. split; [auto|]. split; [auto|].
    cbn [qstep]. split; [exists k; apply (qmax_ext m (babs s)); auto|]. intro u. rewrite Z. apply qset_ext. auto.
  - destruct P as [A B]. rewrite E in B. destruct (delete_node_any _ _ _ _ _ W B) as [s' [X [Y Z]]].
    exists s', RUnit, (babs s'). rewrite X. split; [reflexivity|]. split; [auto|]. split; [auto|].
    cbn [qstep]. intro u. rewrite Z. apply qset_ext. auto.
  - destruct (CK _ _ P) as [s' [X [Y Z]]]. exists s', RUnit, (babs s'). rewrite X. cbn [qstep]. auto.
  - destruct (CK _ _ P) as [s' [X [Y Z]]]. exists s', RUnit, (babs s'). rewrite X. cbn [qstep]. auto.
  - destruct (CK _ _ P) as [s' [X [Y Z]]]. exists s', RUnit, (babs s'). rewrite X. cbn [qstep]. auto.
  - rewrite LK in * by auto. cbn [option_map] in *. eapply SAME; [|reflexivity]. cbn [qstep]. split; [|auto].
    rewrite E. unfold babs. destruct (fst (bix s v)); split; congruence.
  - destruct P as [A B]. rewrite LK in * by auto. cbn [option_map] in *. eapply SAME; [|reflexivity].
    cbn [qstep]. split; [|auto]. rewrite E in *. unfold babs in *. destruct (fst (bix s v)); congruence.
  - eapply SAME; [|reflexivity]. cbn [qstep]. split; [|auto]. rewrite (b_cnt _ _ _ I). apply qsize_ext. auto.
  - eapply SAME; [|reflexivity]. cbn [qstep]. split; [|auto]. rewrite Nat.eqb_eq, (b_cnt _ _ _ I).
    rewrite qsize_zero.
    + split; intros H v; [rewrite E; auto|rewrite <- E; auto].
    + intros v H. destruct (queued _ _ _ _ I H) as [p [Q _]]. exact Q.
  - apply (nonempty_ext _ _ E) in P. pose proof (nonempty_top _ _ _ I P) as L. fold (bkt s (bq_mx s)) in *.
    destruct (bkt s (bq_mx s)) as [|x xs] eqn:EB; [simpl in L; lia|]. rewrite <- EB in L, SAME |- *.
    eapply SAME; [|reflexivity]. cbn [qstep]. split; [|auto]. exists (N.of_nat (bq_mx s - span)).
    apply (qmax_ext m (babs s)); [auto|]. destruct fifo.
    + replace x with (nth 0 (bkt s (bq_mx s)) 0) by (rewrite EB; reflexivity). apply (top_is_max n); auto.
    + rewrite last_nth. apply (top_is_max n); auto. lia.
  - apply (nonempty_ext _ _ E) in P. pose proof (nonempty_top _ _ _ I P) as L.
    eapply SAME; [|reflexivity]. cbn [qstep]. split; [|auto]. rewrite (b_span _ _ _ I).
    eexists. apply (qmax_ext m (babs s)); [auto|]. apply (top_is_max n span s 0); auto.
Qed.

Lemma bq_run_ok fifo n span : forall os s m, wfb fifo n span s -> (forall u, m u = babs s u) ->
  behaves (pre_bucket n span) n m os (bq_run fifo s os).
Proof.
  induction os as [|o os IH]; intros s m W E; [reflexivity|]. cbn [behaves bq_run]. intro P.
  destruct (bq_step_ok _ _ _ _ _ _ W E P) as [s' [r [m' [X [Y [Z Q]]]]]]. rewrite X.
  exists r, (bq_run fifo s' os), m'. auto.
Qed.

Lemma nth_repeat_any {A} (x : A) k i : nth i (repeat x k) x = x.
Proof. revert i. induction k; destruct i; simpl; auto. Qed.

Lemma babs_init n span v : babs (bq_init n span) v = None.
Proof. unfold babs, bix, bq_init. cbn [bq_ix]. rewrite nth_repeat_any. reflexivity. Qed.

Lemma wfb_init fifo n span : wfb fifo n span (bq_init n span).
Proof.
  assert (B : forall a, bkt (bq_init n span) a = []).
  { intro a. unfold bkt, bq_init. cbn [bq_bk]. apply nth_repeat_any. }
  split.
  - constructor.
    + reflexivity.
    + apply repeat_length.
    + apply repeat_length.
    + apply repeat_length.
    + intros a p. rewrite B. simpl. lia.
    + intros v H. exfalso. apply H. unfold bix, bq_init. cbn [bq_ix]. rewrite nth_repeat_any. reflexivity.
    + symmetry. apply qsize_zero; [intros v H|intro v]; [rewrite babs_init in H; congruence|apply babs_init].
    + intros. apply B.
    + reflexivity.
  - intros _ a. unfold boff, bq_init. cbn [bq_off]. apply nth_repeat_any.
Qed.
